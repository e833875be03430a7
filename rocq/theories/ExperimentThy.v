(* Proofs about scripts/experiment_base.py, class Experiment. *)
From Coq Require Import String Ascii.
From mathcomp Require Import all_ssreflect.
From mathcomp Require Import zify.
From Verif Require Import Py Nd Experiment ExperimentSpec.
Set Implicit Arguments. Unset Strict Implicit. Unset Printing Implicit Defensive.
Local Open Scope seq_scope.

Section Thy.
Variable num : eqType.
Variable show : bool -> num -> string.
Variable parse : string -> option num.
Variable na : string -> bool.
Variable show_nat : nat -> string.
Hypothesis csvP : csv_contract show parse na.
Notation exper := (exper num).
Notation dict := (dict num).
Notation cell := (cell num).
Notation frame := (frame num).
Notation NaN := (CNaN num).
Notation to_csv := (to_csv show show_nat).
Notation read_csv := (read_csv parse na).
Implicit Types (d e : dict) (D : frame) (x : exper).

Lemma look_put d k v c : look (dict_put d k v) c = if k == c then v else look d c.
Proof.
elim: d => [|[k' v'] d IH] //=; case: eqP => [->|nk] /=; first by case: eqP.
by case: eqP => [e1|_]; rewrite ?IH //; case: eqP => // e2; rewrite e1 e2 in nk.
Qed.

Lemma look_notin d c : c \notin unzip1 d -> look d c = NaN.
Proof. by elim: d => [|[k v] d IH] //=; rewrite inE negb_or eq_sym => /andP[/negbTE -> /IH]. Qed.

Lemma look_update d e c : uniq (unzip1 e) ->
  look (dict_update d e) c = if c \in unzip1 e then look e c else look d c.
Proof.
elim: e d => [|[k v] e IH] d //= /andP[nk ue]; rewrite /dict_update /= -/(dict_update _ e) IH // look_put inE.
case: (boolP (c \in unzip1 e)) => hc; rewrite ?orbT ?orbF [k == c]eq_sym; last by case: eqP.
by case: eqP => // ek; rewrite -ek hc in nk.
Qed.

Lemma look_in d kv : uniq (unzip1 d) -> kv \in d -> look d kv.1 = kv.2.
Proof.
elim: d => [|[k v] d IH] //= /andP[nk ud]; rewrite inE => /orP[/eqP -> /=|h]; first by rewrite eqxx.
case: eqP => [ek|_]; last exact: IH.
by case/negP: nk; rewrite ek; apply: map_f.
Qed.

Lemma in_look d k v : look d k = v -> v <> NaN -> (k, v) \in d.
Proof.
elim: d => [|[k' v'] d IH] //=; first by move=> <-.
by case: eqP => [-> ->|_ h nv]; rewrite inE ?eqxx // IH ?orbT.
Qed.

Lemma put_new d k v : k \notin unzip1 d -> dict_put d k v = rcons d (k, v).
Proof. by elim: d => [|[k' v'] d IH] //=; rewrite inE negb_or eq_sym => /andP[/negbTE -> /IH ->]. Qed.

Lemma update_new d e : uniq (unzip1 (d ++ e)) -> dict_update d e = d ++ e.
Proof.
elim: e d => [|[k v] e IH] d; rewrite ?cats0 // /dict_update /= -/(dict_update _ e) => u.
rewrite put_new; last first.
  by move: u; rewrite /unzip1 map_cat cat_uniq /= => /and3P[_]; rewrite negb_or => /andP[].
by rewrite IH cat_rcons.
Qed.

Lemma unzip1_cells x : unzip1 [seq (kv.1, to_cell kv.2) | kv <- kwargs x] = unzip1 (kwargs x).
Proof. by rewrite /unzip1 -map_comp. Qed.

Section Plan.
Variables (numbers : string -> bool) (plan : seq exper).
Hypothesis planP : all (good_exper parse na numbers) plan.
Notation good_result := (good_result parse na numbers plan).
Notation good_exper := (good_exper parse na numbers).
Notation of_kind := (of_kind parse na numbers).

Lemma uniq_params x : good_exper x -> uniq (unzip1 (params x)).
Proof.
case/and5P=> u nn _ _ _; rewrite /params /unzip1 map_rcons rcons_uniq /= -/(unzip1 _) unzip1_cells nn.
exact: u.
Qed.

Lemma condsE x : good_exper x -> conds x = params x.
Proof.
move=> g; have /and5P[u nn _ _ _] := g; rewrite /conds update_new /=; last by rewrite unzip1_cells.
by rewrite put_new ?unzip1_cells.
Qed.

Lemma noNaN x kv : good_exper x -> kv \in params x -> kv.2 <> NaN.
Proof.
case/and5P=> _ _ _ nn _; rewrite mem_rcons inE => /orP[/eqP -> //|/mapP[p pin ->]] /=.
by have := allP nn _ pin; case: (p.2).
Qed.

Lemma named x : "name"%string \in unzip1 (params x).
Proof. by rewrite /unzip1 map_rcons mem_rcons inE eqxx. Qed.

Lemma plain_params x : good_exper x -> all plain_name (unzip1 (params x)).
Proof.
case/and5P=> _ _ h _ _; rewrite /unzip1 map_rcons all_rcons /= -/(unzip1 _) unzip1_cells.
exact: h.
Qed.

Definition kind_cell (c : string) (v : cell) : bool :=
  match v with
  | CNum _ => numbers c
  | CStr s => [&& ~~ numbers c, ~~ na s & parse s == None]
  | CNaN => true end.

Lemma kind_look d c : of_kind d -> kind_cell c (look d c).
Proof. by elim: d => [|[k v] d IH] //= /andP[h /IH]; case: eqP => // <-. Qed.

(* the row written for an experiment *)
Definition row_of (it : exper * dict) : dict := dict_update (conds it.1) it.2.
Definition good_item (it : exper * dict) : bool := (it.1 \in plan) && good_result it.2.

Lemma item_exper it : good_item it -> good_exper it.1.
Proof. by case/andP=> /(allP planP). Qed.

Lemma row_look it c : good_item it ->
  look (row_of it) c = if c \in unzip1 it.2 then look it.2 c else look (params it.1) c.
Proof.
move=> g; have /andP[_ /and4P[u _ _ _]] := g; rewrite /row_of look_update //.
by rewrite condsE // item_exper.
Qed.

Lemma disjoint_keys it x c : good_item it -> x \in plan -> c \in unzip1 (params x) -> c \notin unzip1 it.2.
Proof.
case/andP=> _ /and4P[_ _ _ /allP h] xp cx; apply/negP => /h /andP[/allP /(_ _ xp)].
by rewrite cx.
Qed.

Lemma row_kind it c : good_item it -> kind_cell c (look (row_of it) c).
Proof.
move=> g; rewrite row_look //; case: ifP => _; apply: kind_look.
  by case/andP: g => _ /and4P[].
by have /and5P[] := item_exper g.
Qed.

(* the frame D in memory holds the experiments its *)
Definition frame_ok D (its : seq (exper * dict)) : Prop :=
  [/\ size (frows D) = size its, all good_item its,
      (forall it c, it \in its -> c \in unzip1 (row_of it) -> c \in fcols D) &
      forall j c, (j < size its)%N -> ~~ is_unnamed c ->
        look (nth [::] (frows D) j) c = look (row_of (nth (Exper ""%string [::], [::]) its j)) c].

Lemma frame_ok0 : frame_ok (empty_frame num) [::].
Proof. by split. Qed.

Lemma frame_concat D its it : frame_ok D its -> good_item it -> frame_ok (concat D (row_of it)) (rcons its it).
Proof.
move=> [s1 g1 k1 l1] g; split=> /=.
- by rewrite !size_rcons s1.
- by rewrite all_rcons g.
- move=> it' c; rewrite mem_rcons inE mem_cat mem_filter => /orP[/eqP ->|h] hc.
    by rewrite hc andbT orbN.
  by rewrite (k1 _ _ h hc).
move=> j c; rewrite size_rcons ltnS => jl nu; rewrite !nth_rcons s1.
by case: ltngtP jl => // jl' _; apply: l1.
Qed.

Lemma out_of_cols D its j c : frame_ok D its -> (j < size its)%N -> ~~ is_unnamed c ->
  c \notin fcols D -> look (nth [::] (frows D) j) c = NaN.
Proof.
move=> [s1 g1 k1 l1] jl nu nc; rewrite l1 //; apply: look_notin; apply/negP => h.
by case/negP: nc; apply: k1 h; apply: mem_nth.
Qed.

Lemma read_zip (names : seq string) (F : nat -> cell) c i0 :
  look [seq (p.2, F p.1) | p <- zip (iota i0 (size names)) names] c =
  if c \in names then F (i0 + index c names)%N else NaN.
Proof.
elim: names i0 => [|k names IH] i0 //=; rewrite inE [c == k]eq_sym.
by case E: (k == c) => /=; rewrite ?addn0 // IH addSnnS.
Qed.

Lemma unnamedP names : is_unnamed (unnamed names).
Proof. by []. Qed.

Lemma nth_body D j : (j < size (frows D))%N -> nth [::] (body (to_csv D)) j =
  show_nat j :: [seq text show (has_missing D c) (look (nth [::] (frows D) j) c) | c <- fcols D].
Proof.
move=> jl; rewrite /= (nth_map (0%N, [::])) ?size_zip ?size_iota ?minnn //.
by rewrite nth_zip ?size_iota // nth_iota //= add0n.
Qed.

Lemma size_body D : size (body (to_csv D)) = size (frows D).
Proof. by rewrite size_map size_zip size_iota minnn. Qed.

Lemma nth_text D j c : (j < size (frows D))%N -> c \in fcols D ->
  nth ""%string (nth [::] (body (to_csv D)) j) (index c (fcols D)).+1 =
  text show (has_missing D c) (look (nth [::] (frows D) j) c).
Proof.
move=> jl hc; rewrite nth_body //= (nth_map ""%string) ?index_mem //.
by rewrite nth_index.
Qed.

Lemma size_torn k D : size (body (torn k (to_csv D))) = minn k (size (frows D)).
Proof. by rewrite /torn /= size_take size_body /minn. Qed.

Lemma nth_torn k D j : (j < k)%N -> nth [::] (body (torn k (to_csv D))) j = nth [::] (body (to_csv D)) j.
Proof. by move=> jk; rewrite /torn /= nth_take. Qed.

Lemma frame_reload k D its : frame_ok D its -> frame_ok (read_csv (torn k (to_csv D))) (take k its).
Proof.
move=> F; have [s1 g1 k1 l1] := F; have [na0 showP] := csvP; set f := torn k (to_csv D).
have szb : size (body f) = size (take k its) by rewrite /f size_torn s1 size_take /minn.
split.
- by rewrite /= size_map szb.
- by apply/allP => it /mem_take /(allP g1).
- by move=> it c /mem_take hi hc; rewrite /= inE (k1 _ _ hi hc) orbT.
move=> j c jl nu; have jk : (j < k)%N by move: jl; rewrite size_take; case: ifP; lia.
have ji : (j < size its)%N by move: jl; rewrite size_take; case: ifP; lia.
have js : (j < size (frows D))%N by rewrite s1.
have jb : (j < size (body f))%N by rewrite szb.
rewrite nth_take // (nth_map [::]) // (@read_zip _ (fun q => read_cell parse na
  (numeric parse na [seq nth ""%string r q | r <- body f]) (nth ""%string (nth [::] (body f) j) q))).
rewrite add0n /=; set u := unnamed _; have nuc : (u == c) = false.
  by apply/eqP => e; rewrite -e unnamedP in nu.
rewrite inE [c == u]eq_sym nuc /=; case: ifP => hc; last first.
  by rewrite -(l1 _ _ ji nu) (out_of_cols F ji nu) ?hc.
rewrite -[X in read_cell _ _ _ X]/(nth ""%string (nth [::] (body f) j) (index c (fcols D)).+1) nth_torn // nth_text //.
rewrite -(l1 _ _ ji nu); set b := has_missing D c; set nm := numeric _ _ _.
have kc q : (q < size (frows D))%N -> kind_cell c (look (nth [::] (frows D) q) c).
  move=> ql; rewrite l1 // -?s1 //; apply: row_kind; apply: (allP g1); apply: mem_nth; by rewrite -s1.
have numP : numbers c -> nm.
  move=> nc; apply/allP => t /mapP[r /(nthP [::])[q]]; rewrite szb size_take => ql <- ->.
  have qk : (q < k)%N by move: ql; case: ifP; lia.
  have qs : (q < size (frows D))%N by rewrite s1; move: ql; case: ifP; lia.
  rewrite nth_torn // -[nth _ _ _]/(nth ""%string (nth [::] (body (to_csv D)) q) (index c (fcols D)).+1) nth_text //.
  have := kc _ qs; case: (look _ c) => [n|s|] /=; rewrite ?na0 //; last by rewrite nc.
  by have [-> _] := showP (has_missing D c) n; rewrite orbT.
have := kc _ js; case E: (look _ c) => [n|s|] /= kE.
- have [p1 p2] := showP b n; by rewrite /read_cell (negbTE p2) numP // p1.
- case/and3P: kE => nc ns ps; rewrite /read_cell (negbTE ns).
  suff -> : nm = false by [].
  apply/negbTE/allPn; exists s; last by rewrite (negbTE ns) (eqP ps).
  apply/mapP; exists (nth [::] (body f) j); first exact: mem_nth.
  rewrite -[RHS]/(nth ""%string (nth [::] (body f) j) (index c (fcols D)).+1) nth_torn // nth_text //.
  by rewrite E.
- by rewrite /read_cell na0.
Qed.

(* check_experiment_done finds exactly the experiments the new one is part of *)
Lemma checkE D its x : frame_ok D its -> x \in plan ->
  check_done D (conds x) = has (part_of x) (unzip1 its).
Proof.
move=> F xp; have [s1 g1 k1 l1] := F; have gx := allP planP _ xp.
rewrite /check_done condsE //.
have key j kv : (j < size its)%N -> kv \in params x ->
   cell_is (look (nth [::] (frows D) j) kv.1) kv.2 = (kv \in params (nth (Exper ""%string [::], [::]) its j).1).
  move=> jl hkv; have hk : kv.1 \in unzip1 (params x) by apply: map_f.
  have /andP[_ nu] := allP (plain_params gx) _ hk.
  have git : good_item (nth (Exper ""%string [::], [::]) its j) by apply: (allP g1); apply: mem_nth.
  rewrite l1 // row_look // (negbTE (disjoint_keys git xp hk)).
  have nn := noNaN gx hkv; case: kv hkv nn hk {nu} => k v /= hkv nn hk.
  apply/idP/idP => [h|h]; last first.
    rewrite (look_in (uniq_params (item_exper git)) h) /=.
    by case: v hkv nn h => //= ?; rewrite eqxx.
  apply: in_look => //; move: h; case: (look _ k) v {hkv} nn => [n|s|] [m|t|] //= _.
    by move/eqP=> ->.
  by move/eqP=> ->.
have -> : has (part_of x) (unzip1 its) =
   has (fun row => all (fun kv => cell_is (look row kv.1) kv.2) (params x)) (frows D).
  apply/(has_nthP (Exper ""%string [::]))/(has_nthP [::]) => -[j].
  - rewrite size_map => jl; rewrite (nth_map (Exper ""%string [::], [::])) // => h.
    exists j; first by rewrite s1.
    by apply/allP => kv hkv; rewrite key //; exact: (allP h).
  - rewrite s1 => jl h; exists j; first by rewrite size_map.
    rewrite (nth_map (Exper ""%string [::], [::])) //; apply/allP => kv hkv.
    by rewrite -key //; exact: (allP h).
case: ifP => // /negbT /allPn[kv hkv nc]; symmetry; apply/negbTE/negP => /(has_nthP [::])[j jl].
move/allP/(_ _ hkv); rewrite (out_of_cols F) ?s1 -?s1 //.
by have /andP[] := allP (plain_params gx) kv.1 (map_f _ hkv).
Qed.

Definition step (acc : seq exper) x := if has (part_of x) acc then acc else rcons acc x.
Lemma onceE l : once l = foldl step [::] l. Proof. by []. Qed.

Lemma part_refl x : part_of x x.
Proof. by apply/allP. Qed.

Lemma step_has x acc y : has (part_of x) acc -> has (part_of x) (step acc y).
Proof. by move=> h; rewrite /step; case: ifP => // _; rewrite has_rcons h orbT. Qed.

Lemma steps_has x acc l : has (part_of x) acc -> has (part_of x) (foldl step acc l).
Proof. by elim: l acc => [|y l IH] acc //= h; apply: IH; apply: step_has. Qed.

Lemma once_has x l : x \in l -> has (part_of x) (once l).
Proof.
rewrite onceE; elim: l [::] => [|y l IH] acc //=; rewrite inE => /orP[/eqP ->|h]; last exact: IH.
by apply: steps_has; rewrite /step; case: ifP => // _; rewrite has_rcons part_refl.
Qed.

Lemma once_rcons l x : once (rcons l x) = step (once l) x.
Proof. by rewrite /once -cats1 foldl_cat. Qed.

Lemma once_distinct : distinct plan -> once plan = plan.
Proof.
move=> dp; suff H : forall m, (m <= size plan)%N -> once (take m plan) = take m plan.
  by rewrite -[in LHS](take_size plan) H // take_size.
elim=> [|m IH] ml; first by rewrite take0.
rewrite (take_nth (Exper ""%string [::])) // once_rcons IH; last exact: ltnW.
rewrite /step; case: ifP => // /(has_nthP (Exper ""%string [::]))[i]; rewrite size_takel; last exact: ltnW.
move=> il; rewrite nth_take // => h; have := dp i m; rewrite il ml => /(_ isT)[kv h1 h2].
by rewrite (allP h _ h1) in h2.
Qed.

Definition disk_ok (disk : option csv) (its : seq (exper * dict)) : Prop :=
  match disk with
  | None => its = [::]
  | Some f => exists D its0 k, [/\ frame_ok D its0, its = take k its0 & f = torn k (to_csv D)]
  end.

Lemma disk_holds disk its : disk_ok disk its -> holds parse na disk its.
Proof.
case: disk => [f|] //= [D [its0 [k [F -> ->]]]]; have [s1 g1 k1 l1] := F; have [na0 showP] := csvP.
rewrite size_torn s1 size_take; split=> // j jl kv; set it := nth _ _ j => hkv.
have jk : (j < k)%N by move: jl; case: ifP; lia.
have ji : (j < size its0)%N by move: jl; case: ifP; lia.
have Eit : it = nth (Exper ""%string [::], [::]) its0 j by rewrite /it nth_take.
have iti : it \in its0 by rewrite Eit mem_nth.
have git : good_item it by apply: (allP g1).
have gx := item_exper git; have up := uniq_params gx; have /andP[itp /and4P[ur nur _ _]] := git.
have E : look (row_of it) kv.1 = kv.2 /\ kv.1 \in unzip1 (row_of it) /\ plain_name kv.1.
  have K : unzip1 (row_of it) = unzip1 (params it.1) ++ unzip1 it.2.
    rewrite /row_of condsE // update_new /unzip1 ?map_cat // cat_uniq up ur andbT /=.
    by apply/hasPn => c hc; apply/negP => hc'; have := disjoint_keys git itp hc'; rewrite hc.
  rewrite row_look // K mem_cat; move: hkv; rewrite mem_cat => /orP[h|h].
    have hk : kv.1 \in unzip1 (params it.1) by apply: map_f.
    rewrite (negbTE (disjoint_keys git itp hk)) hk; split; first exact: look_in.
    by split=> //; apply: (allP (plain_params gx)).
  have hk : kv.1 \in unzip1 it.2 by apply: map_f.
  rewrite hk orbT; split; first exact: look_in.
  by split=> //; apply: (allP nur).
have [Ev [Ek /andP[E0 Eu]]] := E; have hc : kv.1 \in fcols D by apply: k1 Ek.
split; first by rewrite inE hc orbT.
rewrite [header _]/= [index _ _]/= eq_sym (negbTE E0) nth_torn // nth_text ?s1 // l1 // -Eit Ev.
case: (kv.2) => [n|t|] //=; first by have [] := showP (has_missing D kv.1) n.
Qed.

Notation good_out := (good_out parse na numbers plan).

Lemma recorded_cons (x : exper) o (l : seq (exper * outcome num)) :
  recorded ((x, o) :: l) = (if o is Some res then [:: (x, res)] else [::]) ++ recorded l.
Proof. by case: o. Qed.

Lemma scriptP todo i m D disk its outs :
  todo = drop i plan -> (i <= m <= size plan)%N -> unzip1 its = once (take m plan) ->
  frame_ok D its -> disk_ok disk its -> all good_out outs ->
  let r := script show show_nat D disk todo outs in
  exists m', [/\ (m <= m' <= size plan)%N, unzip1 (its ++ recorded r.2) = once (take m' plan),
     disk_ok r.1 (its ++ recorded r.2), (size r.2 <= (size (recorded r.2)).+1)%N &
     (size todo <= size outs)%N -> all isSome outs -> m' = size plan].
Proof.
elim: todo i m D disk its outs => [|x todo IH] i m D disk its outs Et im Ei F dk go.
  rewrite /= cats0; exists m; split=> //; first by case/andP: im => _ ->; rewrite leqnn.
  move=> _ _; have : size (drop i plan) = 0%N by rewrite -Et.
  by rewrite size_drop; lia.
case: outs go => [|o outs] go.
  by rewrite /= cats0; exists m; split=> //; case/andP: im => _ ->; rewrite leqnn.
have il : (i < size plan)%N.
  by rewrite ltnNge; apply/negP => h; move: Et; rewrite drop_oversize.
have [Ex Et'] : x = nth (Exper ""%string [::]) plan i /\ todo = drop i.+1 plan.
  by move: Et; rewrite (drop_nth (Exper ""%string [::])) // => -[-> ->].
have xp : x \in plan by rewrite Ex mem_nth.
case/andP: go => go gos; rewrite /= /do_experiment (checkE F xp) Ei.
have skip m1 : (i.+1 <= m1 <= size plan)%N -> (m <= m1)%N -> once (take m1 plan) = once (take m plan) ->
  let r := script show show_nat D disk todo outs in
  exists m', [/\ (m <= m' <= size plan)%N, unzip1 (its ++ recorded r.2) = once (take m' plan),
     disk_ok r.1 (its ++ recorded r.2), (size r.2 <= (size (recorded r.2)).+1)%N &
     (size todo < (size outs).+1)%N -> o && all isSome outs -> m' = size plan].
  move=> im1 mm1 e1 r; have Ei1 : unzip1 its = once (take m1 plan) by rewrite e1.
  have [m' [a1 a2 a3 a4 a5]] := IH i.+1 m1 D disk its outs Et' im1 Ei1 F dk gos.
  exists m'; split=> //; first by move: a1 mm1; clear; lia.
  by rewrite ltnS => b1 /andP[_ b2]; apply: a5.
case: (ltnP i m) => im'.
  have -> : has (part_of x) (once (take m plan)).
    by apply: once_has; rewrite Ex -(nth_take _ im') mem_nth // size_takel //; case/andP: im.
  by apply: (skip m) => //; case/andP: im => _ ->; rewrite im'.
have em : m = i by move: im im'; clear; lia.
have next : once (take m.+1 plan) = step (once (take m plan)) x.
  by rewrite em (take_nth (Exper ""%string [::])) // once_rcons Ex.
case hp : (has (part_of x) (once (take m plan))).
  apply: (skip m.+1); rewrite ?em ?leqnn //= ?leqnSn //.
  by rewrite -em next /step hp.
case: o go skip => [res|] go skip; last first.
  by exists m; split=> //=; rewrite ?cats0 //; case/andP: im => _ ->; rewrite leqnn.
have git : good_item (x, res) by rewrite /good_item xp.
have F' := frame_concat F git.
have Ei' : unzip1 (rcons its (x, res)) = once (take m.+1 plan).
  by rewrite /unzip1 map_rcons -/(unzip1 its) Ei next /step hp.
have im2 : (i.+1 <= m.+1 <= size plan)%N by rewrite em leqnn.
have dk' : disk_ok (Some (to_csv (concat D (row_of (x, res))))) (rcons its (x, res)).
  exists (concat D (row_of (x, res))), (rcons its (x, res)), (size (rcons its (x, res))).
  rewrite take_size; split=> //; have [sz _ _ _] := F'; rewrite -sz /torn -size_body take_size.
  by case: (to_csv _).
have := IH i.+1 m.+1 _ _ _ outs Et' im2 Ei' F' dk' gos.
rewrite /row_of /=; case: (script _ _ _ _ todo outs) => [d l] /= [m' [a1 a2 a3 a4 a5]].
rewrite cat_rcons in a2 a3.
exists m'; split=> //; first by move: a1; clear; lia.
Qed.

Lemma sessionP m disk its outs : (m <= size plan)%N -> unzip1 its = once (take m plan) ->
  disk_ok disk its -> all good_out outs ->
  let r := session show parse na show_nat plan disk outs in
  exists m', [/\ (m <= m' <= size plan)%N, unzip1 (its ++ recorded r.2) = once (take m' plan),
     disk_ok r.1 (its ++ recorded r.2), (size r.2 <= (size (recorded r.2)).+1)%N &
     (size plan <= size outs)%N -> all isSome outs -> m' = size plan].
Proof.
move=> ms Ei dk go; rewrite /session.
apply: (scriptP (i := 0) (m := m)) => //; first by rewrite drop0.
case: disk dk => [f|] /=; last by move=> ->; exact: frame_ok0.
by case=> D [its0 [k [F -> ->]]]; apply: frame_reload.
Qed.

Lemma sessionsP m disk its hist : (m <= size plan)%N -> unzip1 its = once (take m plan) ->
  disk_ok disk its -> all (all good_out) hist ->
  let r := sessions show parse na show_nat plan disk hist in
  exists m', [/\ (m <= m' <= size plan)%N, unzip1 (its ++ recorded r.2) = once (take m' plan),
     disk_ok r.1 (its ++ recorded r.2), (size r.2 <= size (recorded r.2) + size hist)%N &
     has (fun outs => (size plan <= size outs)%N && all isSome outs) hist -> m' = size plan].
Proof.
elim: hist m disk its => [|outs hist IH] m disk its ms Ei dk.
  by move=> _ /=; exists m; rewrite cats0 leqnn ms; split.
case/andP=> go gos; have := sessionP ms Ei dk go; rewrite /=.
case: (session _ _ _ _ _ _ _) => [d l] /= [m1 [a1 a2 a3 a4 a5]].
have ms1 : (m1 <= size plan)%N by case/andP: a1.
have := IH m1 d (its ++ recorded l) ms1 a2 a3 gos.
case: (sessions _ _ _ _ _ _ _) => [d' l'] /= [m2 [b1 b2 b3 b4 b5]].
have rc : recorded (l ++ l') = recorded l ++ recorded l' by rewrite /recorded pmap_cat.
exists m2; rewrite rc catA !size_cat; split=> //.
- by move: a1 b1; clear; lia.
- by move: a4 b4; clear; lia.
case/orP=> [/andP[h1 h2]|]; last exact: b5.
by have e := a5 h1 h2; move: b1; rewrite e; clear; lia.
Qed.

(* losing rows is the same as having recorded less *)
Lemma once_prefix k m : (k <= size (once (take m plan)))%N ->
  exists2 m', (m' <= minn m (size plan))%N & once (take m' plan) = take k (once (take m plan)).
Proof.
elim: m => [|m IH]; first by rewrite take0 leqn0 => /eqP ->; exists 0%N; rewrite ?take0.
case: (ltnP m (size plan)) => hm; last first.
  have -> : take m.+1 plan = take m plan by rewrite !take_oversize // ltnW.
  by move=> /IH[m' h1 h2]; exists m' => //; lia.
rewrite (take_nth (Exper ""%string [::])) // once_rcons; set x := nth _ _ _; rewrite /step.
case: ifP => [_ /IH[m' h1 h2]|nh]; first by exists m' => //; lia.
rewrite size_rcons leq_eqVlt ltnS => /orP[/eqP ->|h].
  exists m.+1; first lia.
  rewrite (take_nth (Exper ""%string [::])) // once_rcons /step -/x nh.
  by rewrite [RHS]take_oversize ?size_rcons.
have [m' h1 h2] := IH h; exists m'; first lia.
by rewrite h2 -cats1 takel_cat.
Qed.

Lemma take_minE (T : Type) i j (s : seq T) : take i (take j s) = take (minn i j) s.
Proof. by elim: s i j => [|x s IH] [|i] [|j] //=; rewrite minnSS IH. Qed.

Lemma torn_disk k f its : disk_ok (Some f) its -> disk_ok (Some (torn k f)) (take k its).
Proof.
move=> [D [its0 [k0 [F -> ->]]]]; exists D, its0, (minn k k0); split=> //.
  by rewrite take_minE.
by rewrite /torn /= take_minE.
Qed.

Lemma script_disk D (d1 d2 : option csv) todo outs :
  let r (dk : option csv) := script show show_nat D dk todo outs in
  [/\ (r d1).2 = (r d2).2, recorded (r d1).2 = [::] -> (r d1).1 = d1 &
      recorded (r d1).2 <> [::] -> (r d1).1 = (r d2).1].
Proof.
elim: todo D d1 d2 outs => [|x todo IH] D d1 d2 [|o outs] r //; rewrite /r /= /do_experiment.
rewrite {}/r; case: ifP => _; first by have := IH D d1 d2 outs.
case: o => [res|] //=; set D' := concat _ _; set d := Some _.
by case: (script _ _ _ _ todo outs).
Qed.

(* sessions with torn saves *)
Lemma livesP m disk its hist : (m <= size plan)%N -> unzip1 its = once (take m plan) ->
  disk_ok disk its -> all (fun h => all good_out h.1) hist ->
  let r := lives show parse na show_nat plan disk hist in
  exists m' its', [/\ (m' <= size plan)%N, unzip1 its' = once (take m' plan),
     disk_ok r.1 its', {subset its' <= its ++ recorded r.2} &
     (size r.2 <= size (recorded r.2) + size hist)%N].
Proof.
elim: hist m disk its => [|[outs t] hist IH] m disk its ms Ei dk.
  by move=> _ /=; exists m, its; rewrite cats0; split.
case/andP=> go gos; have := sessionP ms Ei dk go; rewrite /=.
case: (session _ _ _ _ _ _ _) => [d l] /= [m1 [a1 a2 a3 a4 a5]].
have ms1 : (m1 <= size plan)%N by case/andP: a1.
have [m2 [its2 [c1 c2 c3 c4]]] : exists m2 its2, [/\ (m2 <= size plan)%N, unzip1 its2 = once (take m2 plan),
    disk_ok (tear t d) its2 & {subset its2 <= its ++ recorded l}].
  move=> {go IH}; case: t => [k|] /=; last by exists m1, (its ++ recorded l); split.
  case: d a3 => [f|] a3 /=; last by exists m1, (its ++ recorded l); split.
  have := torn_disk k a3; set s := _ ++ _ => a3'.
  case: (leqP k (size s)) => ks.
    have [m2 h1 h2] : exists2 m', (m' <= minn m1 (size plan))%N &
       once (take m' plan) = take k (once (take m1 plan)).
      by apply: once_prefix; rewrite -a2 /unzip1 size_map.
    exists m2, (take k s); split=> //.
    - by move: h1; clear; lia.
    - by rewrite h2 -a2 /unzip1 map_take.
    by move=> y /mem_take.
  exists m1, (take k s); split=> //; rewrite take_oversize //; by apply: ltnW.
have := IH m2 _ its2 c1 c2 c3 gos.
case: (lives _ _ _ _ _ _ _) => [d' l'] /= [m3 [its3 [b1 b2 b3 b4 b5]]].
have rc : recorded (l ++ l') = recorded l ++ recorded l' by rewrite /recorded pmap_cat.
exists m3, its3; rewrite rc catA !size_cat; split=> //.
- move=> y /b4; rewrite !mem_cat => /orP[/c4|->]; rewrite ?orbT //.
  by rewrite mem_cat => ->.
- by move: a4 b5; clear; lia.
Qed.

Lemma once_sep (l : seq exper) i j : (i < j < size (once l))%N ->
  ~~ part_of (nth (Exper ""%string [::]) (once l) j) (nth (Exper ""%string [::]) (once l) i).
Proof.
elim/last_ind: l i j => [|l y IH] i j; first by rewrite andbC.
rewrite once_rcons /step; case: ifP => [_|nh]; first exact: IH.
rewrite size_rcons ltnS => /andP[ij jl]; have il := leq_trans ij jl.
rewrite !nth_rcons il; case: (ltnP j _) => jl'; first by apply: IH; rewrite ij.
have -> : j == size (once l) by rewrite eqn_leq jl.
apply/negP => h; move/negP: nh; apply; apply/hasP; exists (nth (Exper ""%string [::]) (once l) i) => //.
exact: mem_nth.
Qed.

Lemma script_header D disk todo outs f : (script show show_nat D disk todo outs).1 = Some f ->
  recorded (script show show_nat D disk todo outs).2 <> [::] -> (size (fcols D) < size (header f))%N.
Proof.
elim: todo D disk outs f => [|x todo IH] D disk [|o outs] f //; rewrite /= /do_experiment.
case: ifP => _; first exact: IH.
case: o => [res|] //=; set D' := concat _ _.
have sD : (size (fcols D) <= size (fcols D'))%N by rewrite size_cat leq_addr.
have := IH D' (Some (to_csv D')) outs f; have := script_disk D' (Some (to_csv D')) (Some (to_csv D')) todo outs => /=.
case: (script _ _ _ _ todo outs) => [d l] /= [_ h1 _] h2 Ed _.
case E : (recorded l) => [|a b]; last first.
  by apply: leq_ltn_trans sD _; apply: h2 => //; rewrite E.
by move: Ed; rewrite h1 // => -[<-] /=; rewrite ltnS.
Qed.
End Plan.
End Thy.
