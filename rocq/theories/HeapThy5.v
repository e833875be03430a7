(* In-place modification: who sees it and who does not. *)
From mathcomp Require Import all_ssreflect all_algebra.
From mathcomp.zify Require Import zify.
From Verif Require Import Py Nd Utils Tensor NdThy Heap HeapSpec HeapThy1 HeapThy2 HeapThy3 HeapThy4.
Set Implicit Arguments. Unset Strict Implicit. Unset Printing Implicit Defensive.
Import GRing.Theory.
Local Open Scope ring_scope.

Section Thy.
Variable R : comRingType.
Notation arr := (nd R).
Notation tensor := (tensor R).
Notation heap := (heap R).
Implicit Types (h : heap) (v : view) (o : nat).

Lemma pygetP A (l : seq A) d k x : pyget l k = Ok x <-> (k < size l)%N /\ nth d l k = x.
Proof.
rewrite /pyget; case: (ltnP k (size l)) => H.
  rewrite (drop_nth d H) /=; split; first by case=> ->.
  by case=> _ ->.
by rewrite drop_oversize //=; split=> // -[].
Qed.

Lemma bind_inv A B (x : res A) (f : A -> res B) y : bind x f = Ok y -> exists a, x = Ok a /\ f a = Ok y.
Proof. by case: x => [a|e] //= E; exists a. Qed.

(* ------------------------------------------------------------------ *)
(* writes                                                              *)
Lemma op_write_inv h v k x h' : op_write h v k x = Ok h' ->
  exists b, [/\ (k < size (voff v))%N, at_ (bufs h) (vbuf v) = Some b &
     h' = set_bufs h (set_nth [::] (bufs h) (vbuf v) (set_nth 0 b (nth 0%N (voff v) k) x))].
Proof.
rewrite /op_write; case E: (pyget _ _) => [off|] //=; case Eb: (at_ _ _) => [b|] //= [<-].
by move/(pygetP _ 0%N): E => [H <-]; exists b.
Qed.

Lemma rd_write h v k x h' v' a : op_write h v k x = Ok h' ->
  (vbuf v, nth 0%N (voff v) k) \notin vcells v' -> rd h v' = Some a -> rd h' v' = Some a.
Proof.
case/op_write_inv => b [Hk Eb ->]; rewrite /rd /=; case Eb': (at_ _ (vbuf v')) => [b'|] // N.
case: ifP => // /andP [Hall Hs] [<-].
rewrite at_set ?(at_lt Eb) //; case: eqP => [E|_]; last by rewrite Eb' Hall Hs.
have Ebb : b' = b by move: Eb'; rewrite E Eb => -[->].
rewrite {}Ebb in Hall *; rewrite Hs andbT.
have -> : all (fun j => j < size (set_nth 0%R b (nth 0%N (voff v) k) x))%N (voff v').
  by apply/allP => j Hj; rewrite size_set_nth leq_max (allP Hall _ Hj) orbT.
congr (Some (Nd _ _)); apply/eq_in_map => j Hj; rewrite nth_set_nth /=; case: eqP => // Ej.
by case/mapP: N; exists j; rewrite // E Ej.
Qed.

Lemma rds_write h v k x h' vs cs : op_write h v k x = Ok h' ->
  (vbuf v, nth 0%N (voff v) k) \notin flatten (map vcells vs) -> rds h vs = Some cs -> rds h' vs = Some cs.
Proof.
move=> W; elim: vs cs => [|v' vs IH] cs //=; rewrite mem_cat negb_or => /andP [N1 N2].
rewrite {1}/rds /=; case E: (rd h v') => [a|] //; case E': (opts _) => [r|] // [<-].
by rewrite /rds /= (rd_write W N1 E) -/(rds h' vs) (IH _ N2 E').
Qed.

Lemma opts_imp_in (A : Type) (B : eqType) (f g : B -> option A) l r :
  (forall b a, b \in l -> f b = Some a -> g b = Some a) -> opts (map f l) = Some r -> opts (map g l) = Some r.
Proof.
elim: l r => [|x l IH] r //= H.
case E: (f x) => [a|] //; case E': (opts _) => [r'|] // [<-].
rewrite (H _ _ (mem_head _ _) E) (IH r') // => b c Hb; apply: H; by rewrite inE Hb orbT.
Qed.

Lemma notin_flat (T : eqType) (A : eqType) (F : A -> seq T) l x (c : T) :
  c \notin flatten (map F l) -> x \in l -> c \notin F x.
Proof. by move=> N Hx; apply: contra N => Hc; apply/flattenP; exists (F x) => //; apply: map_f. Qed.

Lemma val_write n h v k x h' o X : op_write h v k x = Ok h' ->
  (vbuf v, nth 0%N (voff v) k) \notin cells n h o -> val n h o = Some X -> val n h' o = Some X.
Proof.
move=> W; have [b [_ _ Eh']] := op_write_inv W.
have Eo : objs h' = objs h by rewrite Eh'.
have Ea : alists h' = alists h by rewrite Eh'.
have Et : tlists h' = tlists h by rewrite Eh'.
elim: n o X => [|n IH] o X //=; rewrite Eo; case: (at_ (objs h) o) => [[v'|s i v'|s r l|s r l|s r l c|s l]|] //.
- by move=> N; case E: (rd h v') => [a|] //; rewrite (rd_write W N E).
- by move=> N; case E: (rd h v') => [a|] //; rewrite (rd_write W N E).
- by rewrite Ea; case: (at_ _ l) => [vs|] // N; case E: (rds h vs) => [cs|] //; rewrite (rds_write W N E).
- by rewrite Ea; case: (at_ _ l) => [vs|] // N; case E: (rds h vs) => [cs|] //; rewrite (rds_write W N E).
- rewrite Ea; case: (at_ _ l) => [vs|] //; rewrite mem_cat negb_or => /andP [N1 N2].
  case E: (rds h vs) => [cs|] //; rewrite (rds_write W N2 E).
  by case E': (rd h c) => [a|] //; rewrite (rd_write W N1 E').
- rewrite Et; case: (at_ _ l) => [os|] // N; case E: (opts _) => [Xs|] //.
  rewrite (@opts_imp_in _ _ (val n h) (val n h') os Xs) // => b' a Hb; apply: IH.
  exact: notin_flat N Hb.
Qed.

Lemma write_self h v k x h' a : op_write h v k x = Ok h' -> uniq (voff v) -> rd h v = Some a ->
  rd h' v = Some (Nd (nshape a) (set_nth 0 (ndata a) k x)).
Proof.
case/op_write_inv => b [Hk Eb ->] U; rewrite /rd /= Eb; case: ifP => // /andP [Hall Hs] [<-] /=.
rewrite at_set ?(at_lt Eb) // eqxx Hs andbT.
have -> : all (fun j => j < size (set_nth 0%R b (nth 0%N (voff v) k) x))%N (voff v).
  by apply/allP => j Hj; rewrite size_set_nth leq_max (allP Hall _ Hj) orbT.
congr (Some (Nd _ _)); apply: (@eq_from_nth _ 0).
  by rewrite size_set_nth !size_map (maxn_idPr _).
move=> j; rewrite size_map => Hj; rewrite (nth_map 0%N) // !nth_set_nth /= (nth_map 0%N) //.
by rewrite nth_uniq.
Qed.

(* ------------------------------------------------------------------ *)
(* += *)
Definition upd_tlist h l os := set_tlists h (set_nth [::] (tlists h) l os).

Lemma rd_upd h l os v : rd (upd_tlist h l os) v = rd h v. Proof. by []. Qed.
Lemma rds_upd h l os vs : rds (upd_tlist h l os) vs = rds h vs. Proof. by []. Qed.

Lemma val_upd n h l os o : (l < size (tlists h))%N ->
  l \notin tensor_lists n h o -> val n (upd_tlist h l os) o = val n h o.
Proof.
move=> L; elim: n o => [|n IH] o //=; case: (at_ (objs h) o) => [[v'|s i v'|s r l'|s r l'|s r l' c|s l']|] //.
rewrite inE negb_or => /andP [N1 N2]; rewrite at_set // eq_sym (negbTE N1).
case: (at_ _ l') N2 => [os'|] // N2; congr omap; congr opts; apply/eq_in_map => o' Ho'.
by apply: IH; exact: notin_flat N2 Ho'.
Qed.

Lemma op_iadd_inv h o1 o2 s l xs ys : at_ (objs h) o1 = Some (OSum s l) -> at_ (tlists h) l = Some xs ->
  oparts h o2 = Ok ys -> op_iadd h o1 o2 = Ok (upd_tlist h l (xs ++ ys), o1).
Proof.
move=> Eo El; rewrite /oparts /op_iadd Eo /=; case: (at_ _ o2) => [y|] //= Ey; rewrite El /=.
by move: Ey; case: y => [?|???|???|???|????|? l2] /=; (try by case=> <-) => ->.
Qed.

Lemma iadd_self n h o1 s l xs Xs ys Ys : at_ (objs h) o1 = Some (OSum s l) ->
  at_ (tlists h) l = Some xs -> opts (map (val n h) xs) = Some Xs ->
  opts (map (val n h) ys) = Some Ys ->
  (forall o, o \in xs ++ ys -> l \notin tensor_lists n h o) ->
  val n.+1 (upd_tlist h l (xs ++ ys)) o1 = Some (TSum s (Xs ++ Ys)).
Proof.
move=> Eo El Vx Vy N; rewrite /= Eo at_set ?(at_lt El) // eqxx.
have -> : map (val n (upd_tlist h l (xs ++ ys))) (xs ++ ys) = map (val n h) (xs ++ ys).
  by apply/eq_in_map => o Ho; apply: val_upd; [exact: at_lt El|exact: N].
by rewrite map_cat (opts_cat Vx Vy).
Qed.

(* ------------------------------------------------------------------ *)
(* X[k] = data *)
Definition upd_alist h l vs := set_alists h (set_nth [::] (alists h) l vs).
Lemma rd_upda h l vs v : rd (upd_alist h l vs) v = rd h v. Proof. by []. Qed.
Lemma rds_upda h l vs ws : rds (upd_alist h l vs) ws = rds h ws. Proof. by []. Qed.

Lemma val_upda n h l vs o : (l < size (alists h))%N ->
  l \notin array_lists n h o -> val n (upd_alist h l vs) o = val n h o.
Proof.
move=> L; elim: n o => [|n IH] o //=; case: (at_ (objs h) o) => [[v'|s i v'|s r l'|s r l'|s r l' c|s l']|] //.
- by rewrite inE => N; rewrite at_set // eq_sym (negbTE N).
- by rewrite inE => N; rewrite at_set // eq_sym (negbTE N).
- by rewrite inE => N; rewrite at_set // eq_sym (negbTE N).
- case: (at_ _ l') => [os'|] // N2; congr omap; congr opts; apply/eq_in_map => o' Ho'.
  by apply: IH; exact: notin_flat N2 Ho'.
Qed.

(* ------------------------------------------------------------------ *)
(* footprints do not move under extension *)
Lemma cells_ext n h h' o X : ext h h' -> val n h o = Some X -> cells n h' o = cells n h o.
Proof.
move=> H; elim: n o X => [|n IH] o X //=.
case: (H) => Hb Ha Ht Ho; case Eo: (at_ (objs h) o) => [x|] //; rewrite (Ho _ _ Eo).
case: x Eo => [v|s i v|s r l|s r l|s r l c|s l] Eo //.
- by case E: (at_ _ l) => [vs|] //; rewrite (Ha _ _ E).
- by case E: (at_ _ l) => [vs|] //; rewrite (Ha _ _ E).
- by case E: (at_ _ l) => [vs|] //; rewrite (Ha _ _ E).
- case E: (at_ _ l) => [os|] //; rewrite (Ht _ _ E).
  case E': (opts _) => [Xs|] // _; congr flatten; elim: os Xs {E} E' => [|o' os IHo] Xs //=.
  by case E: (val n h o') => [Y|] //; case E': (opts _) => [r|] // _; rewrite (IH _ _ E) (IHo _ E').
Qed.

Lemma tlists_ext n h h' o X : ext h h' -> val n h o = Some X -> tensor_lists n h' o = tensor_lists n h o.
Proof.
move=> H; elim: n o X => [|n IH] o X //=.
case: (H) => Hb Ha Ht Ho; case Eo: (at_ (objs h) o) => [x|] //; rewrite (Ho _ _ Eo).
case: x Eo => [v|s i v|s r l|s r l|s r l c|s l] Eo //.
case E: (at_ _ l) => [os|] //; rewrite (Ht _ _ E).
case E': (opts _) => [Xs|] // _; congr (_ :: flatten _); elim: os Xs {E} E' => [|o' os IHo] Xs //=.
by case E: (val n h o') => [Y|] //; case E': (opts _) => [r|] // _; rewrite (IH _ _ E) (IHo _ E').
Qed.

(* every cell of an existing object lies in an existing buffer *)
Lemma rd_cells h v a c : rd h v = Some a -> c \in vcells v -> (c.1 < size (bufs h))%N.
Proof.
by rewrite /rd; case E: (at_ _ _) => [b|] // _ /mapP [k _ ->]; exact: at_lt E.
Qed.
Lemma rds_cells h vs cs c : rds h vs = Some cs -> c \in flatten (map vcells vs) -> (c.1 < size (bufs h))%N.
Proof.
elim: vs cs => [|v vs IH] cs //; rewrite {1}/rds /=; case E: (rd h v) => [a|] //; case E': (opts _) => [r|] // _.
by rewrite mem_cat => /orP [|]; [exact: rd_cells E|exact: IH E'].
Qed.
Lemma old_cells n h o X c : val n h o = Some X -> c \in cells n h o -> (c.1 < size (bufs h))%N.
Proof.
elim: n o X => [|n IH] o X //=; case: (at_ _ o) => [[v'|s i v'|s r l'|s r l'|s r l' co|s l']|] //.
- by case E: (rd h v') => [a|] // _; apply: rd_cells E.
- by case E: (rd h v') => [a|] // _; apply: rd_cells E.
- by case: (at_ _ l') => [vs|] //; case E: (rds h vs) => [cs|] // _; apply: rds_cells E.
- by case: (at_ _ l') => [vs|] //; case E: (rds h vs) => [cs|] // _; apply: rds_cells E.
- case: (at_ _ l') => [vs|] //; case E: (rds h vs) => [cs|] //; case E': (rd h co) => [a|] // _.
  by rewrite mem_cat => /orP [|]; [exact: rd_cells E'|exact: rds_cells E].
- case: (at_ _ l') => [os|] //; case E: (opts _) => [Xs|] // _ /flattenP [q /mapP [o' Ho' ->]].
  elim: os Xs E Ho' => [|o1 os IHo] Xs //=; case E1: (val n h o1) => [Y|] //; case E2: (opts _) => [r|] // _.
  by rewrite inE => /orP [/eqP ->|Ho']; [exact: IH E1|exact: IHo E2 Ho'].
Qed.

(* ------------------------------------------------------------------ *)
(* fresh results *)
Definition fresh (m : nat) (cs : seq (nat * nat)) := all (fun c => m <= c.1)%N cs.

Lemma new_arrs_cells h l : fresh (size (bufs h)) (flatten (map vcells (new_arrs h l).2)).
Proof.
elim: l h => [|a l IH] h //=; case E: (new_arrs _ _) => [h2 vs] /=; rewrite /fresh all_cat.
have -> : all (fun c => size (bufs h) <= c.1)%N (vcells (new_arr h a).2).
  by apply/allP => c /mapP [k _ ->].
have := IH (new_arr h a).1; rewrite E /= size_rcons => /allP H; apply/allP => c /H; exact: ltnW.
Qed.

Lemma cells_tt n h l vs : at_ (alists h) l = Some vs ->
  forall h1 o, new_tt h l = Ok (h1, o) -> cells n.+1 h1 o = flatten (map vcells vs).
Proof. by move=> E h1 o; rewrite /new_tt E /= => -[<- <-]; rewrite /= at_rcons /= E. Qed.

Lemma mul_fresh n c h o X h' o' m : val n h o = Some X -> copied X -> op_mul n c h o = Ok (h', o') ->
  (m <= size (bufs h))%N -> fresh m (cells n h' o').
Proof.
elim: n h o X h' o' m => [|n IH] h o X h' o' m // /val_inv.
have F0 (k : nat) l : (k <= size (bufs h))%N -> fresh (size (bufs h)) l -> fresh k l.
  by move=> Hk /allP H; apply/allP => x /H; exact: leq_trans Hk.
case: X => [a|s i d|cs|cs|fs co|s Xs] //.
- case=> v [Eo Ev] _; rewrite /= Eo /= Ev /= => -[<- <-] Hm; rewrite /= at_rcons.
  by apply/allP => x /mapP [k _ ->].
- case=> v [Eo Ev] _; rewrite /= Eo /= Ev /= => -[<- <-] Hm; rewrite /= at_rcons.
  by apply/allP => x /mapP [k _ ->].
- case=> l [vs [Eo El Er]] _; cbn [op_mul]; rewrite Eo /= El /= Er /=.
  case: (rev cs) => [|C r] //; have := new_arrs_cells h (rev (nscale c C :: r)).
  case: (new_arrs _ _) => [h1 vs'] /= F E Hm.
  rewrite -/(cells n.+1 h' o') (@cells_tt n _ _ vs' _ _ _ E); last by rewrite /= at_rcons.
  exact: F0 Hm F.
- case=> l [os [Eo El V]] /= Hc; rewrite Eo /= El /=.
  case Em: (mapH _ _ _) => [[h1 os1]|] //= E Hm.
  have K1 := @kp_mapH R nat (op_mul n c) os (fun h a => @kp_mul R n c h a) h _ _ Em.
  have F1 : all (fun o1 => if val n h1 o1 is Some _ then fresh m (cells n h1 o1) else false) os1.
    clear E El F0; elim: os Xs h os1 h1 V Hc Em Hm {K1 Eo} => [|o1 os IHo] Xs h os1 h1.
      by move=> _ _ [_ <-].
    rewrite /=; case E1: (val n h o1) => [X1|] //; case E2: (opts _) => [r|] // [<-] /= /andP [c1 cr].
    have := op_mulE c E1; rewrite /refs; case Eq: (tmul X1 c) => [Y1|e]; last by move=> ->.
    case=> ha [oa [Ea Xa Ca Va]]; rewrite Ea /=.
    case Em: (mapH _ _ _) => [[hb osb]|] //= [<- <-] Hm /=.
    have Kb := @kp_mapH R nat (op_mul n c) os (fun h a => @kp_mul R n c h a) ha _ _ Em.
    rewrite (val_ext Kb.1 Va) (cells_ext Kb.1 Va) (IH _ _ _ _ _ _ E1 c1 Ea Hm) /=.
    apply: (IHo r ha) => //; first exact: (opts_imp (fun b a => @val_ext _ n h ha b a Xa) E2).
    by apply: leq_trans Hm _; case: Xa => S _ _ _; apply: sub_size.
  have [x1 [E1 X1]] : exists x1, at_ (objs h') o' = Some (OSum x1 (size (tlists h1))) /\
      (at_ (tlists h') (size (tlists h1)) = Some os1 /\ ext h1 h').
    have K := kp_sum_of E; move: E; rewrite /sum_of /new_sum /= at_rcons /=.
    case: (pyget os1 0) => [o0|] //=; case: (at_ _ o0) => [x0|] //= [Eh Eo']; exists (oshape x0).
    split; first by rewrite -Eh -Eo' /= at_rcons.
    by split; [rewrite -Eh /= at_rcons|exact: K.1].
  rewrite E1 X1.1; apply/allP => x /flattenP [q /mapP [o1 Ho1 ->]].
  have := allP F1 _ Ho1; case Ev: (val n h1 o1) => [Y|] // /allP F; rewrite (cells_ext X1.2 Ev); exact: F.
Qed.

Lemma tt_add_fresh n h o1 o2 h' o' : op_tt_add h o1 o2 = Ok (h', o') ->
  fresh (size (bufs h)) (cells n h' o').
Proof.
rewrite /op_tt_add; case: (at_ _ o1) => [x|] //=; case: (at_ _ o2) => [y|] //=.
case: x => [?|???|? ? l1|???|????|??] //; case: y => [?|???|? ? l2|???|????|??] //.
case: (at_ _ l1) => [vs1|] //=; case: (at_ _ l2) => [vs2|] //=.
case: (rds h vs1) => [cs1|] //=; case: (rds h vs2) => [cs2|] //=.
case: (tt_add cs1 cs2) => [cs|] //=; have := new_arrs_cells h cs; case: (new_arrs _ _) => [h1 vs] /= F E.
case: n => [|n] //; rewrite (@cells_tt n _ _ vs _ _ _ E) //; by rewrite /= at_rcons.
Qed.

Lemma sweep_fresh f n h o s r l h' o' : at_ (objs h) o = Some (OTT s r l) -> size s <> 1%N ->
  (forall vs, at_ (alists h) l = Some vs -> size s = size vs) -> op_sweep f h o = Ok (h', o') ->
  fresh (size (bufs h)) (cells n h' o').
Proof.
rewrite /op_sweep => -> /= s1; case: (at_ _ l) => [vs1|] //= /(_ _ erefl) sv.
case: (rds h vs1) => [cs1|] //=.
case: (f cs1) => [cs|] //=; have := new_arrs_cells h cs.
rewrite (_ : (if vs1 is [:: v] then (h, [:: v]) else new_arrs h cs) = new_arrs h cs); last first.
  by case: vs1 sv => [|? [|]] //= sv; case: s1.
case: (new_arrs _ _) => [h1 vs] /= F E.
case: n => [|n] //; rewrite (@cells_tt n _ _ vs _ _ _ E) //; by rewrite /= at_rcons.
Qed.

Lemma to_numpy_fresh n h o X h' v : val n h o = Some X -> np_fresh X -> op_to_numpy n h o = Ok (h', v) ->
  (size (bufs h) <= vbuf v)%N.
Proof.
case: n => [|n] // /val_inv; case: X => [a|s i d|cs|cs|fs co|s Xs] //.
- case=> w [Eo Ev] _; rewrite /op_to_numpy Eo /= Ev /=; case: (sparse_to_numpy _ _ _) => [a|] //= [_ <-] //.
- case=> l [vs [Eo El Er]] Hs; rewrite /op_to_numpy Eo /= El /= Er /=; case: (tt_to_numpy cs) => [a|] //=.
  have := opts_size Er; rewrite size_map => Es; move: Hs; rewrite /= Es.
  by case: vs {El Er Es} => [|v1 [|v2 vs]] //= _ [_ <-].
- case=> l [vs [C0 [r [Eo El Er _]]]] _; rewrite /op_to_numpy Eo /= El /= Er /=; by case: (cp_to_numpy cs) => [a|] //= [_ <-].
- case=> l [vs [w [Eo El Er Ev]]] Hs; rewrite /op_to_numpy Eo /= El /= Er /= Ev /=; case: (tucker_to_numpy fs co) => [a|] //=.
  have := opts_size Er; rewrite size_map => Es; move: Hs; rewrite /= Es.
  by case: vs {El Er Es} => [|v1 vs] //= _ [_ <-].
- case=> l [os [Eo El V]] _; cbn [op_to_numpy]; rewrite Eo /= El /=.
  by move=> E; have [h1 [_ [_ <-]]] := bind_inv E.
Qed.

End Thy.
