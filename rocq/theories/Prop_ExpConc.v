(* C66: several copies of an experiment script running at the same time on one log file, with any
   interleaving of their starts, calls and (partial) writes, any failures and any kills. *)
From Coq Require Import String Ascii.
From mathcomp Require Import all_ssreflect.
From mathcomp Require Import zify.
From Verif Require Import Py Nd Experiment ExperimentSpec ExperimentThy ExpConc Prop_Experiment.
Set Implicit Arguments. Unset Strict Implicit. Unset Printing Implicit Defensive.
Local Open Scope string_scope.
Local Open Scope seq_scope.

Section C66.
Variable num : eqType.
Variables (show : bool -> num -> string) (parse : string -> option num) (na : string -> bool).
Variable show_nat : nat -> string.
Hypothesis csvP : csv_contract show parse na.
Variables (numbers : string -> bool) (plan : seq (exper num)).
Hypothesis planP : all (good_exper parse na numbers) plan.
Notation good := (good_out parse na numbers plan).
Notation holds := (holds parse na).
Notation X0 := (Exper (num := num) ""%string [::]).
Notation play := (play show parse na show_nat).
Notation act := (act show parse na show_nat).
Notation frame_ok := (frame_ok parse na numbers plan).
Notation disk_ok := (disk_ok show parse na show_nat numbers plan).
Notation world := (world num).
Notation dict := (dict num).

(* every process has the same plan and the functions return acceptable results, or fail *)
Definition copy_event (ev : event num) : bool :=
  match ev with Start p => p == plan | Call _ o => good o | _ => true end.

(* ---- the invariant ---- *)
Definition part (w : world) (its : seq (exper num * dict)) (m : nat) : Prop :=
  [/\ (m <= size plan)%N, unzip1 its = once (take m plan) & {subset its <= recorded (log w)}].
Definition failed (w : world) : bool := has (fun p : exper num * outcome num => ~~ isSome p.2) (log w).
Definition pinv (w : world) (p : proc num) its m : Prop :=
  [/\ part w its m, frame_ok (mem p) its &
      (exists2 i, (i <= m)%N & todo p = drop i plan) \/ (todo p = [::] /\ failed w)].
Definition Inv (w : world) : Prop := exists G M gd md,
  [/\ forall i, (i < size (procs w))%N -> pinv w (nth (no_proc num) (procs w) i) (G i) (M i),
      part w gd md, disk_ok (disk w) gd &
      size (procs w) = 0%N \/ exists2 p, (p < size (procs w))%N & saving (nth (no_proc num) (procs w) p) \/ gd = G p].

Lemma part_log w w' its m : {subset recorded (log w) <= recorded (log w')} -> part w its m -> part w' its m.
Proof. by move=> h [h1 h2 h3]; split=> // x /h3/h. Qed.
Lemma pinv_log w w' p its m : {subset recorded (log w) <= recorded (log w')} -> (failed w -> failed w') -> pinv w p its m -> pinv w' p its m.
Proof.
move=> h f [h1 h2 h3]; split=> //; first exact: part_log h1.
by case: h3 => [h3|[h3 h4]]; [left|right; split=> //; exact: f].
Qed.

Lemma rec_rcons (l : seq (exper num * outcome num)) x o : recorded (rcons l (x, o)) = recorded l ++ (if o is Some res then [:: (x, res)] else [::]).
Proof. by rewrite /recorded -cats1 pmap_cat; case: o. Qed.

Lemma part_take w its m k : part w its m -> exists m', part w (take k its) m'.
Proof.
move=> [h1 h2 h3]; have hs : {subset take k its <= recorded (log w)} by move=> x /mem_take/h3.
case: (leqP k (size its)) => hk; last first.
  by exists m; rewrite (take_oversize (ltnW hk)); split; [exact: h1|exact: h2|exact: h3].
have hk' : (k <= size (once (take m plan)))%N by rewrite -h2 size_map.
have [m' a1 a2] := once_prefix planP hk'; exists m'; split=> //; first by move: a1; clear; lia.
by rewrite /unzip1 map_take -/(unzip1 its) h2.
Qed.

Lemma act_inv w ev : copy_event ev -> Inv w -> Inv (act w ev).
Proof.
move=> hev [G [M [gd [md [hp hd hk hj]]]]]; case: ev hev => [p /eqP ->|i o go|i k _|i _] /=.
- (* Start *)
  set n := size (procs w); exists (fun i => if i == n then gd else G i), (fun i => if i == n then md else M i), gd, md.
  rewrite /= size_rcons; split=> //.
    move=> i; rewrite nth_rcons ltnS -/n; case: (ltngtP i n) => // [hi _|_ _]; first exact: hp.
    split=> //=; last by left; exists 0%N; rewrite ?drop0.
    case: (disk w) hk => [f|] /=; last by move=> ->; exact: frame_ok0.
    by case=> D [its0 [k [F -> ->]]]; apply: frame_reload.
  by right; exists n => //; right; rewrite eqxx.
- (* Call *)
  case: ifP => sv; first by exists G, M, gd, md.
  set p := nth _ _ i in sv *; case Et: (todo p) => [|x rest]; first by exists G, M, gd, md.
  have hi : (i < size (procs w))%N by rewrite ltnNge; apply/negP => h; move: Et; rewrite /p nth_default.
  have [[ms Ei si] F ht] := hp i hi; rewrite -/p Et in F ht.
  have {ht} [j jm Ed] : exists2 j, (j <= M i)%N & x :: rest = drop j plan by case: ht => // -[].
  have jl : (j < size plan)%N by rewrite ltnNge; apply/negP => h; move: Ed; rewrite drop_oversize.
  have [Ex Er] : x = nth X0 plan j /\ rest = drop j.+1 plan by move: Ed; rewrite (drop_nth X0) // => -[-> ->].
  have xp : x \in plan by rewrite Ex mem_nth.
  rewrite (checkE planP F xp) Ei.
  have sz q : size (set_nth (no_proc num) (procs w) i q) = size (procs w) by rewrite size_set_nth (maxn_idPr hi).
  have next : j = M i -> once (take (M i).+1 plan) = step (once (take (M i) plan)) x.
    by move=> e; rewrite -e (take_nth X0) // once_rcons Ex.
  case hs: (has (part_of x) (once (take (M i) plan))).
    (* skipped *)
    exists G, (fun k => if k == i then maxn (M i) j.+1 else M k), gd, md; rewrite /= sz; split=> //.
      move=> k hk'; rewrite nth_set_nth /=; case: eqP => [->|_]; last exact: hp.
      split=> //=; last by left; exists j.+1; rewrite ?leq_maxr.
      split=> //; first by rewrite geq_max ms.
      rewrite Ei; case: (ltngtP j (M i)) jm => // [h|e] _; first by rewrite (maxn_idPl h).
      by rewrite -e in next hs *; rewrite (maxn_idPr (leqnSn j)) next // /step hs.
    case: hj => [h|[q hq h]]; [by left|right; exists q => //].
    by rewrite nth_set_nth /=; case: eqP h => [-> [h|->]|_ h] //; [rewrite -/p sv in h|right].
  have em : j = M i.
    apply/eqP; rewrite eqn_leq jm leqNgt; apply/negP => h; move/negP: hs; apply.
    by apply: once_has; rewrite Ex -(nth_take _ h) mem_nth // size_takel.
  have nx := next em; rewrite /step hs in nx.
  case: o go => [res|] go.
    (* recorded *)
    set w' := World _ _ _; have hr : {subset recorded (log w) <= recorded (log w')}.
      by move=> y hy; rewrite /w' /= rec_rcons mem_cat hy.
    have hf : failed w -> failed w' by rewrite /failed /w' /= has_rcons orbC => ->.
    have git : good_item parse na numbers plan (x, res) by rewrite /good_item xp.
    exists (fun k => if k == i then rcons (G i) (x, res) else G k), (fun k => if k == i then (M i).+1 else M k), gd, md.
    rewrite {2 3 4}/w' /= sz; split=> //.
    + move=> k hk'; rewrite nth_set_nth /=; case: eqP => [_|_]; last exact: pinv_log (hp k hk').
      split=> //=; last by left; exists j.+1; [rewrite em|].
        split; first by rewrite -em.
          by rewrite /unzip1 map_rcons -/(unzip1 (G i)) Ei nx.
        move=> y; rewrite mem_rcons inE /w' /= rec_rcons mem_cat => /orP[/eqP ->|/si ->] //.
        by rewrite mem_head orbT.
      exact: frame_concat F git.
    + exact: part_log hd.
    by right; exists i => //; left; rewrite nth_set_nth /= eqxx.
  (* failed *)
  set w' := World _ _ _; have hr : {subset recorded (log w) <= recorded (log w')}.
    by move=> y hy; rewrite /w' /= rec_rcons cats0.
  have hf : failed w' by rewrite /failed /w' /= has_rcons.
  exists G, M, gd, md; rewrite {2 3 4}/w' /= sz; split=> //.
  + move=> k hk'; rewrite nth_set_nth /=; case: eqP => [->|_]; last by apply: pinv_log (hp k hk').
    split=> //=; last by right.
    exact: (@part_log w).
  + exact: part_log hd.
  case: hj => [h|[q hq h]]; [by left|right; exists q => //].
  by rewrite nth_set_nth /=; case: eqP h => [-> [h|->]|_ h] //; [rewrite -/p sv in h|right].
- (* Save_part *)
  case: ifP => sv; last by exists G, M, gd, md.
  have hi : (i < size (procs w))%N by rewrite ltnNge; apply/negP => h; move: sv; rewrite nth_default.
  have [h1 F _] := hp i hi; have [m' h1'] := part_take k h1.
  exists G, M, (take k (G i)), m'; split=> //; last by right; exists i => //; left.
  by exists (mem (nth (no_proc num) (procs w) i)), (G i), k.
case: ifP => sv; last by exists G, M, gd, md.
have hi : (i < size (procs w))%N by rewrite ltnNge; apply/negP => h; move: sv; rewrite nth_default.
have [h1 F h3] := hp i hi; set p := nth _ _ _ in F h3 sv *.
exists G, M, (G i), (M i); rewrite /= size_set_nth (maxn_idPr hi); split=> //.
- by move=> k hk'; rewrite nth_set_nth /=; case: eqP => [->|_]; [split|exact: hp].
- exists (mem p), (G i), (size (G i)); rewrite take_size; split=> //.
  by have [sz _ _ _] := F; rewrite -sz /torn -(size_body show show_nat) take_size; case: (to_csv _ _ _).
by right; exists i => //; right.
Qed.

Lemma play_inv evs : all copy_event evs -> Inv (play evs).
Proof.
elim/last_ind: evs => [|evs ev IH].
  by move=> _; exists (fun _ => [::]), (fun _ => 0%N), [::], 0%N; split=> //; [split; rewrite ?take0|left].
by rewrite all_rcons => /andP[hev /IH h]; rewrite /ExpConc.play foldl_rcons; exact: act_inv.
Qed.

(* Whatever the schedule: the file holds results of calls that were made, each experiment of a
   first part of the plan exactly once and in the order of the plan. *)
Theorem C66_any_schedule evs : all copy_event evs ->
  let w := play evs in
  exists m its, [/\ (m <= size plan)%N, unzip1 its = once (take m plan),
    {subset its <= recorded (log w)} & holds (disk w) its].
Proof.
move=> /play_inv[G [M [gd [md [_ [h1 h2 h3] hk _]]]]].
by exists md, gd; split; [exact: h1|exact: h2|exact: h3|exact: (disk_holds csvP planP hk)].
Qed.

(* After any schedule, once all processes are gone, one run to the end without failures calls
   exactly the experiments that the file does not hold, and completes the file. *)
Theorem C66_recovers evs outs : all copy_event evs -> all good outs ->
  (size plan <= size outs)%N -> all isSome outs ->
  let w := play evs in
  let r := session show parse na show_nat plan (disk w) outs in
  exists kept, [/\ {subset kept <= recorded (log w)}, holds (disk w) kept,
    unzip1 (kept ++ recorded r.2) = once plan & holds r.1 (kept ++ recorded r.2)].
Proof.
move=> /play_inv[G [M [gd [md [_ [h1 h2 h3] hk _]]]]] go so ao w r; exists gd.
have [m' [a1 a2 a3 _ a5]] := sessionP csvP planP h1 h2 hk go.
split; [exact: h3|exact: (disk_holds csvP planP hk)| |exact: (disk_holds csvP planP a3)].
by rewrite a2 a5 // take_size.
Qed.

(* All processes have come to the end of the plan, no call failed: the file is complete. *)
Theorem C66_all_finished evs : all copy_event evs ->
  let w := play evs in
  (0 < size (procs w))%N -> all (fun p => nilp (todo p) && ~~ saving p) (procs w) ->
  all (fun p : exper num * outcome num => isSome p.2) (log w) ->
  exists its, [/\ unzip1 its = once plan, {subset its <= recorded (log w)} & holds (disk w) its].
Proof.
move=> /play_inv[G [M [gd [md [hp [h1 h2 h3] hk hj]]]]] w p0 ad nf.
case: hj => [h|[q hq hj]]; first by rewrite /w h in p0.
have := all_nthP (no_proc num) ad q hq; case/andP => /nilP td /negbTE sv.
case: hj => [h|h]; first by rewrite sv in h.
exists gd; split; [|exact: h3|exact: (disk_holds csvP planP hk)].
have [[m1 m2 _] _ ht] := hp q hq; rewrite h m2.
case: ht => [[j jm Ed]|[_]]; last by rewrite /failed => /hasP[y hy]; rewrite (allP nf).
have jl : (size plan <= j)%N.
  by rewrite leqNgt; apply/negP => hl; move: Ed; rewrite td (drop_nth X0).
by rewrite take_oversize // (leq_trans jl).
Qed.
End C66.
Print Assumptions C66_any_schedule.
Print Assumptions C66_recovers.
Print Assumptions C66_all_finished.

(* A process that runs while no other does anything is a session of C59. *)
Section Alone.
Variable num : eqType.
Variables (show : bool -> num -> string) (parse : string -> option num) (na : string -> bool).
Variable show_nat : nat -> string.
Notation act := (act show parse na show_nat).
Notation play := (play show parse na show_nat).
(* process number [n]: for each outcome, a call and the end of its save() *)
Definition alone (n : nat) (outs : seq (outcome num)) : seq (event num) :=
  flatten [seq [:: Call n o; Save_end num n] | o <- outs].

Lemma idle n outs (w : world num) : nth (no_proc num) (procs w) n = Proc (mem (nth (no_proc num) (procs w) n)) [::] false ->
  foldl act w (alone n outs) = w.
Proof.
move=> h; have hs : saving (nth (no_proc num) (procs w) n) = false by rewrite h.
have ht : todo (nth (no_proc num) (procs w) n) = [::] by rewrite h.
elim: outs => [|o outs IH] //; rewrite /alone [map _ _]/= [flatten _]/= [foldl _ _ _]/=.
by rewrite hs ht hs; exact: IH.
Qed.

Lemma aloneP n rest outs (w : world num) D : (n < size (procs w))%N ->
  nth (no_proc num) (procs w) n = Proc D rest false ->
  let w' := foldl act w (alone n outs) in
  let r := script show show_nat D (disk w) rest outs in
  disk w' = r.1 /\ log w' = log w ++ r.2.
Proof.
elim: rest outs w D => [|e rest IH] outs w D hn h.
  by rewrite idle ?h //= cats0.
case: outs => [|o outs]; first by rewrite /= cats0.
have E : foldl act w (alone n (o :: outs)) = foldl act (act (act w (Call n o)) (Save_end num n)) (alone n outs) by [].
rewrite E {E} [script _ _ _ _ _ _]/= /do_experiment [act w _]/= h [saving _]/= [todo _]/= [mem _]/=.
have nn (p : proc num) : nth (no_proc num) (set_nth (no_proc num) (procs w) n p) n = p by rewrite nth_set_nth /= eqxx.
have ss (p : proc num) : (n < size (set_nth (no_proc num) (procs w) n p))%N.
  by rewrite size_set_nth (maxn_idPr hn).
case: ifP => hc.
  set w1 := World _ _ _; have -> : act w1 (Save_end num n) = w1 by rewrite /= nn.
  by apply: IH; [exact: ss|exact: nn].
case: o => [res|].
  set w1 := World _ _ _; have -> : act w1 (Save_end num n) =
    World (Some (to_csv show show_nat (concat D (dict_update (conds e) res))))
      (set_nth (no_proc num) (procs w1) n (Proc (concat D (dict_update (conds e) res)) rest false)) (log w1).
    by rewrite /= nn.
  set w2 := World _ _ _.
  have hn2 : (n < size (procs w2))%N by rewrite /w2 /= size_set_nth (maxn_idPr (ss _)).
  have h2 : nth (no_proc num) (procs w2) n = Proc (concat D (dict_update (conds e) res)) rest false.
    by rewrite /w2 /= nth_set_nth /= eqxx.
  have /= := IH outs w2 _ hn2 h2; case: (script _ _ _ _ _ _) => d l /= [-> ->].
  by rewrite cat_rcons.
set w1 := World _ _ _; have -> : act w1 (Save_end num n) = w1 by rewrite /= nn.
by rewrite idle ?nn // /w1 /= -cats1.
Qed.

Theorem C66_alone (evs : seq (event num)) plan outs :
  let w := play evs in
  let w' := play (evs ++ Start plan :: alone (size (procs w)) outs) in
  let r := session show parse na show_nat plan (disk w) outs in
  disk w' = r.1 /\ log w' = log w ++ r.2.
Proof.
move=> w w' r; rewrite /w' /ExpConc.play foldl_cat -/(play evs) -/w [foldl _ _ (_ :: _)]/=.
set w1 := World _ _ _.
have h1 : (size (procs w) < size (procs w1))%N by rewrite /= size_rcons.
apply: (@aloneP _ plan outs w1 _ h1).
by rewrite /= nth_rcons ltnn eqxx.
Qed.
End Alone.
Print Assumptions C66_alone.

(* ------------------------------------------------------------------ *)
(* two copies of the plan of Prop_Experiment, a partial write, a failed call, a third copy *)
Notation nact := (nat_eqType).
Definition ex_evs : seq (event nact) :=
  [:: Start ex_plan; Start ex_plan; Call 0 (Some (ex_res 5)); Call 1 (Some (ex_res 6)); Save_end nact 1;
      Save_part nact 0 0; Call 1 (Some (ex_res 7)); Start ex_plan; Save_end nact 0; Call 0 None; Save_end nact 1].
Example ex_evs_ok : all (copy_event parse1 na1 ex_numbers ex_plan) ex_evs.
Proof. by vm_compute. Qed.
Example ex_any := C66_any_schedule (show1 true) csv1 ex_plan_ok ex_evs_ok.
Example ex_world :
  let w := play show1 parse1 na1 (show1 true) ex_evs in
  [/\ unzip1 (log w) = [:: nth (Exper "" [::]) ex_plan 0; nth (Exper "" [::]) ex_plan 0;
                           nth (Exper "" [::]) ex_plan 1; nth (Exper "" [::]) ex_plan 1],
    omap (size \o body) (disk w) = Some 2%N & [seq size (todo p) | p <- procs w] = [:: 0; 1; 3]]%N.
Proof. by vm_compute. Qed.
Definition ex_two : seq (event nact) :=
  Start ex_plan :: Start ex_plan :: flatten [seq [:: Call i (Some (ex_res 5)); Save_end nact i] | i <- [:: 0; 1; 1; 0; 1; 0]%N].
Example ex_two_done :
  let w := play show1 parse1 na1 (show1 true) ex_two in
  [/\ (0 < size (procs w))%N, all (fun p => nilp (todo p) && ~~ saving p) (procs w) &
      all (fun p : exper nact * outcome nact => isSome p.2) (log w)].
Proof. by vm_compute. Qed.
Example ex_two_all := C66_all_finished (show_nat := show1 true) csv1 ex_plan_ok (evs := ex_two).

(* ------------------------------------------------------------------ *)
(* What two processes do not give *)
Notation play1 := (play (num := nact) show1 parse1 na1 (show1 true)).
Definition rows (w : world nact) : seq (seq string) :=
  if disk w is Some f then [seq [seq nth "" r (index k (header f)) | k <- [:: "name"; "rank"]] | r <- body f] else [::].

(* two scripts with different plans and the same file: both come to their end without a failure,
   and the results of the one that saves first are lost *)
Theorem C66_lost_refuted :
  let e1 := Exper "svd" [:: k_rank 1] in let e2 := Exper "hmt" [:: k_rank 2] in
  let w := play1 [:: Start [:: e1]; Start [:: e2]; Call 0 (Some (ex_res 5)); Save_end nact 0;
                     Call 1 (Some (ex_res 6)); Save_end nact 1] in
  [/\ all (fun p => nilp (todo p) && ~~ saving p) (procs w), unzip1 (recorded (log w)) = [:: e1; e2] &
      rows w = [:: [:: "hmt"; "011"]]].
Proof. by vm_compute. Qed.
Print Assumptions C66_lost_refuted.

(* two copies of a script: every experiment is run twice *)
Theorem C66_twice_refuted :
  let e1 := Exper "svd" [:: k_rank 1] in
  let w := play1 [:: Start [:: e1]; Start [:: e1]; Call 0 (Some (ex_res 5)); Save_end nact 0;
                     Call 1 (Some (ex_res 6)); Save_end nact 1] in
  unzip1 (recorded (log w)) = [:: e1; e1] /\ rows w = [:: [:: "svd"; "01"]].
Proof. by vm_compute. Qed.
Print Assumptions C66_twice_refuted.

(* ... and a slower copy takes saved rows out of the file again; if it is then killed they stay lost *)
Theorem C66_shrinks_refuted :
  let e1 := Exper "svd" [:: k_rank 1] in let e2 := Exper "hmt" [:: k_rank 2] in
  let before := [:: Start [:: e1; e2]; Start [:: e1; e2]; Call 0 (Some (ex_res 5)); Save_end nact 0;
                    Call 0 (Some (ex_res 6)); Save_end nact 0] in
  rows (play1 before) = [:: [:: "svd"; "01"]; [:: "hmt"; "011"]] /\
  rows (play1 (before ++ [:: Call 1 (Some (ex_res 7)); Save_end nact 1])%SEQ) = [:: [:: "svd"; "01"]].
Proof. by vm_compute. Qed.
Print Assumptions C66_shrinks_refuted.
