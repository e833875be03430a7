(* C20: tt_svd.  [svd] stands for numpy.linalg.svd(., full_matrices=False); only the contract
   svd_red_contract of LinSpec.v is assumed of it (it may also raise LinAlgError).  [tt_svd_g]
   (RoundSpec.v) is the same function which also returns the singular values dropped at every bond. *)
From Coq Require Import String Ascii NArith.
From mathcomp Require Import all_ssreflect all_algebra.
From mathcomp Require Import zify.
From Verif Require Import Py Nd NdThy Utils Tensor Spec LinSpec ChainThy MatThy TensorThy TensorThy2 TensorThy4 GatherThy DotThy TrimThy.
From Verif Require Import TensorNum SweepThy NormThy RoundSpec RoundThy ErrThy RoundThy2 RoundOpt TtSvdThy.
From Verif Require Import Sketch SkSpec RecSpec SkThy14 RankThy Prop_Opt LinExist.
Set Implicit Arguments. Unset Strict Implicit. Unset Printing Implicit Defensive.
Import GRing.Theory Num.Theory Order.TTheory.
Local Open Scope ring_scope.

Section Core.
Variable R : rcfType.
Notation arr := (nd R).
Implicit Types (X : tensor R).
Variable svd : arr -> res (arr * arr * arr).
Hypothesis svdP : svd_red_contract svd.

(* the rank argument: an explicit request or, for None, the number of entries at every bond *)
Definition svd_rank X (rank : option ttrank) : ttrank :=
  if rank is Some r then r else RTuple (nseq (size (tshape X)).-1 (prods (tshape X))).

Lemma svd_gP X rank rk : wf X -> (1 < size (tshape X))%N -> all (fun n => 0 < n)%N (tshape X) ->
  process_tt_rank (svd_rank X rank) (tshape X) true = Ok rk ->
  or_linalg (tt_svd_g svd X rank) (sweep_post rk 0 1 (tshape X) (fun _ i => den X i)).
Proof.
move=> w s2 ps E; rewrite /tt_svd_g; have [a -> [wa sa ga]] := to_numpyE w; rewrite [bind (Ok a) _]/=.
rewrite -[if rank is Some r then r else _]/(svd_rank X rank) E [bind (Ok rk) _]/=.
have [srk s0] := process_size ps E.
case es : (tshape X) s2 ps srk => [|n s] // s2 ps srk; rewrite es in sa ga.
have /andP[np ps'] := ps.
rewrite (_ : [:: 0%N] = iota 0 1) // matricize_lead ?/ndim ?sa // [bind (Ok _) _]/= take0 drop0.
set M := Nd _ _; set body := bind _ _.
have -> : body = bodyf svd (n :: s) rk 0 (iota 1 (size s).-1) 1 M.
  rewrite /body /bodyf /=; case: (svd M) => [[[U Sv] V]|] //=; case: (pyget _ _) => [rk0|] //=.
  case: (reshape (slice_ax _ _ _ _) _) => [core|] //=; case: (diag_mul _ _ _) => [T1|] //=.
  rewrite !drop0; case: (reshape T1 _) => [T2|] //=; rewrite /tailf /=; case: (tt_svd_loop_g _ _ _ _ _ _) => [[[[cs p] T'] l]|] //=.
  by case: (reshape T' _).
have P : prods [:: n; prods s] = prods (nshape a) by rewrite sa /= muln1.
have mM : is_mat M (1 * n) (prods s).
  by split; [move: wa; rewrite /nwf /M -P | rewrite mul1n].
have s1 : (0 < size s)%N := s2.
have := @bodyP R svd svdP (n :: s) rk 0 (iota 1 (size s).-1) 1 n s (fun _ i => den X i) M; apply=> //=.
- move=> r T r_p wT sT; apply: tailP => //=; rewrite ?drop0 ?prednK // srk /=; clear -s1; lia.
- move=> b k j; rewrite ltnS leqn0 => /eqP -> hk hj; rewrite mul0n add0n -ga /= ?hk //.
  by rewrite /get sa /M /= !muln1 !addn0.
- by rewrite drop0.
- by rewrite srk.
Qed.

Lemma svdE X rank : tt_svd svd X rank = (do x <- tt_svd_g svd X rank; Ok x.1).
Proof. exact: tt_svd_erase. Qed.

Lemma post_wf rk X r : wf X -> (1 < size (tshape X))%N -> sweep_post rk 0 1 (tshape X) (fun _ i => den X i) r ->
  [/\ wf (TT r.1), tshape (TT r.1) = tshape X, size r.1 = size (tshape X) &
      sqdist X (TT r.1) = sum_sq r.2 /\
      sum_idx (tshape X) (fun i => den X i ^+ 2) = sum_idx (tshape X) (fun i => den (TT r.1) i ^+ 2) + sum_sq r.2].
Proof.
move=> w s2 [[L Mo] _ _ [E1 E2] _].
have sz : size r.1 = size (tshape X) by rewrite -Mo /modes size_map.
split=> //; last by rewrite big_nat1 in E1; rewrite !big_nat1 in E2.
by apply/andP; split=> //; case: (r.1) sz s2 => // <-.
Qed.
End Core.

(* shape, ranks and orthonormality *)
Theorem C20_shape_and_ranks (R : rcfType) svd (X : tensor R) (rank : option ttrank) rk :
  svd_red_contract svd -> wf X -> (1 < size (tshape X))%N -> all (fun n => 0 < n)%N (tshape X) ->
  process_tt_rank (svd_rank X rank) (tshape X) true = Ok rk ->
  or_linalg (tt_svd svd X rank) (fun out =>
    [/\ wf (TT out), tshape (TT out) = tshape X, all_but_last (fun C => left_orth C) out &
        forall k, (k < (size (tshape X)).-1)%N -> (1 <= nth 0 (tt_rank out) k <= maxn 1 (nth 0 rk k))%N]).
Proof.
move=> svdP w s2 ps E; rewrite svdE; have := svd_gP svdP w s2 ps E.
case: (tt_svd_g _ _ _) => [r|e] //= H; have [w' S' sz _] := post_wf w s2 H; case: H => [[L Mo] [O P] [B _] _ _].
split=> // k hk; have hk' : (k.+1 < size r.1)%N by rewrite sz; clear -hk; lia.
rewrite (tt_rank_nth L hk') B // andbT.
move: P; rewrite /pos_tt => /(all_nthP (Nd [::] [::]))/(_ k (ltnW hk'))/andP[_ ->] //.
Qed.

(* the error is exactly what was dropped *)
Theorem C20_error_is_discarded (R : rcfType) svd (X : tensor R) (rank : option ttrank) rk :
  svd_red_contract svd -> wf X -> (1 < size (tshape X))%N -> all (fun n => 0 < n)%N (tshape X) ->
  process_tt_rank (svd_rank X rank) (tshape X) true = Ok rk ->
  or_linalg (tt_svd_g svd X rank) (fun r =>
    tt_svd svd X rank = Ok r.1 /\
    exists a b, [/\ to_numpy X = Ok a, to_numpy (TT r.1) = Ok b, size r.2 = (size (tshape X)).-1 &
      sum_idx (nshape a) (fun i => (get a i - get b i) ^+ 2)
      = \sum_(dropped <- r.2) \sum_(s <- dropped) s ^+ 2]).
Proof.
move=> svdP w s2 ps E; rewrite svdE; have := svd_gP svdP w s2 ps E.
case: (tt_svd_g _ _ _) => [r|e] //= H; split=> //; have [w' S' sz [D _]] := post_wf w s2 H; case: H => [_ _ [_ So] _ _].
have [a Ea _] := to_numpyE w; have [b Eb _] := to_numpyE w'.
by exists a, b; split=> //; rewrite -(sqdist_obs w w' _ Ea Eb).
Qed.

(* tt_svd is an orthogonal projection *)
Theorem C20_projection (R : rcfType) svd (X : tensor R) (rank : option ttrank) rk :
  svd_red_contract svd -> wf X -> (1 < size (tshape X))%N -> all (fun n => 0 < n)%N (tshape X) ->
  process_tt_rank (svd_rank X rank) (tshape X) true = Ok rk ->
  or_linalg (tt_svd svd X rank) (fun out =>
    exists a b, [/\ to_numpy X = Ok a, to_numpy (TT out) = Ok b, nshape b = nshape a &
      sum_idx (nshape a) (fun i => (get a i - get b i) ^+ 2)
      = sum_idx (nshape a) (fun i => get a i ^+ 2) - sum_idx (nshape a) (fun i => get b i ^+ 2)]).
Proof.
move=> svdP w s2 ps E; rewrite svdE; have := svd_gP svdP w s2 ps E.
case: (tt_svd_g _ _ _) => [r|e] //= H; have [w' S' sz [D N]] := post_wf w s2 H.
have [a Ea [_ sa ga]] := to_numpyE w; have [b Eb [_ sb gb]] := to_numpyE w'.
exists a, b; split=> //; first by rewrite sa sb S'.
rewrite -(sqdist_obs w w' _ Ea Eb) // D.
rewrite (_ : sum_idx (nshape a) (fun i => get a i ^+ 2) = sum_idx (tshape X) (fun i => den X i ^+ 2)); last first.
  by rewrite sa; apply: eq_sum_idx => i hi; rewrite ga.
rewrite (_ : sum_idx (nshape a) (fun i => get b i ^+ 2) = sum_idx (tshape X) (fun i => den (TT r.1) i ^+ 2)); last first.
  by rewrite sa; apply: eq_sum_idx => i hi; rewrite gb // S'.
by rewrite N [RHS]addrC addKr.
Qed.

(* exactness: nothing but zeros dropped *)
Theorem C20_nothing_dropped (R : rcfType) svd (X : tensor R) (rank : option ttrank) rk r :
  svd_red_contract svd -> wf X -> (1 < size (tshape X))%N -> all (fun n => 0 < n)%N (tshape X) ->
  process_tt_rank (svd_rank X rank) (tshape X) true = Ok rk ->
  tt_svd_g svd X rank = Ok r -> (forall dropped, dropped \in r.2 -> forall s, s \in dropped -> s = 0) ->
  tt_svd svd X rank = Ok r.1 /\ to_numpy (TT r.1) = to_numpy X.
Proof.
move=> svdP w s2 ps E Er Z; rewrite svdE Er /=; split=> //.
have := svd_gP svdP w s2 ps E; rewrite Er => H; have [w' S' sz [D _]] := post_wf w s2 H.
by symmetry; apply: (@sqdist0 R X (TT r.1)) => //; rewrite D; exact: sum_sq0.
Qed.

(* bond by bond optimality: compared with ANY tensors y_k whose rank at bond k is within the rank
   used there *)
Theorem C20_bondwise_optimal (R : rcfType) svd (X : tensor R) (rank : option ttrank) rk :
  svd_red_contract svd -> wf X -> (1 < size (tshape X))%N -> all (fun n => 0 < n)%N (tshape X) ->
  process_tt_rank (svd_rank X rank) (tshape X) true = Ok rk ->
  or_linalg (tt_svd svd X rank) (fun out =>
    exists a b, [/\ to_numpy X = Ok a, to_numpy (TT out) = Ok b, nshape b = nshape a &
      forall y : nat -> seq nat -> R,
      (forall k, (k < (size (nshape a)).-1)%N -> (\rank (unfolding (nshape a) (y k) k) <= maxn 1 (nth 0 rk k))%N) ->
      sum_idx (nshape a) (fun i => (get a i - get b i) ^+ 2)
      <= \sum_(0 <= k < (size (nshape a)).-1) sum_idx (nshape a) (fun i => (get a i - y k i) ^+ 2)]).
Proof.
move=> svdP w s2 ps E; rewrite svdE; have := svd_gP svdP w s2 ps E.
case: (tt_svd_g _ _ _) => [r|e] //= H; have [w' S' sz [D N]] := post_wf w s2 H.
have [a Ea [_ sa ga]] := to_numpyE w; have [b Eb [_ sb gb]] := to_numpyE w'.
exists a, b; split=> //; first by rewrite sa sb S'.
case: H => [_ _ [_ So] _ Q] y hy; rewrite -(sqdist_obs w w' _ Ea Eb) // D (sum_sq_nth So) sa.
rewrite big_nat [X in _ <= X]big_nat; apply: ler_sum => k /andP[_ hk].
have := hy k; rewrite sa => /(_ hk)/bond_rankP[f [g e]].
have := Q k (fun _ => y k) _ (fun _ => f) g hk (leqnn _); rewrite big_nat1 => h.
apply: le_trans (h _) _; first by move=> b' i j _ hi hj; exact: e.
rewrite le_eqVlt; apply/orP; left; apply/eqP; by apply: eq_sum_idx => i hi; rewrite ga.
Qed.

(* quasi-optimality with respect to the requested ranks *)
Theorem C20_quasi_optimal (R : rcfType) svd (X : tensor R) (m : ttrank) rk :
  svd_red_contract svd -> wf X -> (1 < size (tshape X))%N -> all (fun n => 0 < n)%N (tshape X) ->
  process_tt_rank m (tshape X) false = Ok rk -> all (fun r => 0 < r)%N rk ->
  or_linalg (tt_svd svd X (Some m)) (fun out =>
    exists a b, [/\ to_numpy X = Ok a, to_numpy (TT out) = Ok b, nshape b = nshape a &
      forall y : seq nat -> R,
      (forall k, (k < (size (nshape a)).-1)%N -> (\rank (unfolding (nshape a) y k) <= nth 0 rk k)%N) ->
      sum_idx (nshape a) (fun i => (get a i - get b i) ^+ 2)
      <= (size (nshape a)).-1%:R * sum_idx (nshape a) (fun i => (get a i - y i) ^+ 2)]).
Proof.
move=> svdP w s2 ps E rk0; have [srk s0] := process_size ps E; have E' := process_trimE true E.
have := C20_bondwise_optimal (rank := Some m) svdP w s2 ps E'.
case: (tt_svd _ _ _) => [out|e] //= [a [b [Ea Eb sab H]]].
exists a, b; split=> // y hy; have [a' Ea' [_ sa _]] := to_numpyE w.
have [ea] : Ok a = Ok a' := etrans (esym Ea) Ea'; rewrite -ea in sa.
apply: le_trans (H (fun _ => y) _) _.
  move=> k; rewrite sa => hk; apply: leq_trans (leq_maxr _ _); apply: rank_trim => //.
  by move=> mu; rewrite -sa; apply: hy.
by rewrite big_const_nat subn0 iter_addr addr0 mulr_natl.
Qed.

(* exactness: X is recovered as soon as its unfoldings have ranks within the request *)
Theorem C20_exact_rank (R : rcfType) svd (X : tensor R) (m : ttrank) rk a :
  svd_red_contract svd -> wf X -> (1 < size (tshape X))%N -> all (fun n => 0 < n)%N (tshape X) ->
  process_tt_rank m (tshape X) false = Ok rk -> all (fun r => 0 < r)%N rk ->
  to_numpy X = Ok a -> (forall k, (k < (size (nshape a)).-1)%N -> (\rank (unfolding (nshape a) (get a) k) <= nth 0 rk k)%N) ->
  or_linalg (tt_svd svd X (Some m)) (fun out => to_numpy (TT out) = Ok a).
Proof.
move=> svdP w s2 ps E rk0 Ea hr.
have W := C20_shape_and_ranks (rank := Some m) svdP w s2 ps (process_trimE true E).
have := C20_quasi_optimal svdP w s2 ps E rk0; move: W.
case: (tt_svd _ _ _) => [out|e] //= [w' S' _ _] [a' [b [Ea' Eb sab H]]].
have [ea] : Ok a = Ok a' := etrans (esym Ea) Ea'; rewrite -ea in H sab *.
rewrite -[RHS]Ea; symmetry; apply: (@sqdist0 R X (TT out)) => //.
rewrite (sqdist_obs w (w' : wf (TT out)) _ Ea Eb) //; apply/eqP; rewrite eq_le.
have := H (get a) hr; rewrite [Y in _ * Y](_ : _ = 0) ?mulr0; last first.
  rewrite sum_idxE big1_seq // => i _; by rewrite subrr expr0n.
by move=> ->; rewrite sum_idx_ge0 // => i; exact: sqr_ge0.
Qed.

(* tt_svd(X) without a rank is exact *)
Theorem C20_default_exact (R : rcfType) svd (X : tensor R) :
  svd_red_contract svd -> wf X -> (1 < size (tshape X))%N -> all (fun n => 0 < n)%N (tshape X) ->
  or_linalg (tt_svd svd X None) (fun out => to_numpy (TT out) = to_numpy X).
Proof.
move=> svdP w s2 ps; have [a Ea [wa sa ga]] := to_numpyE w.
have E : process_tt_rank (svd_rank X None) (tshape X) false = Ok (nseq (size (tshape X)).-1 (prods (tshape X))).
  by apply: process_rtuple; rewrite ?size_nseq //; exact: ltnW.
have pp : (0 < prods (tshape X))%N by elim: (tshape X) ps => //= x l I /andP[hx /I h]; rewrite muln_gt0 hx.
have ap : all (fun r => 0 < r)%N (nseq (size (tshape X)).-1 (prods (tshape X))) by rewrite all_nseq pp orbT.
have h k : (k < (size (nshape a)).-1)%N -> (\rank (unfolding (nshape a) (get a) k) <= nth 0 (nseq (size (tshape X)).-1 (prods (tshape X))) k)%N.
  rewrite sa => hk; rewrite nth_nseq hk; apply: leq_trans (rank_leq_row _) _.
  by rewrite -[X in (_ <= prods X)%N](cat_take_drop k.+1) prods_cat leq_pmulr // ; move: pp; rewrite -{1}(cat_take_drop k.+1 (tshape X)) prods_cat muln_gt0 => /andP[].
by rewrite Ea; exact: (C20_exact_rank svdP w s2 ps E ap Ea h).
Qed.

(* with one mode every call with an acceptable rank argument (None, any int, the empty tuple) raises
   IndexError (new_rank[0] of an empty list), unless the SVD has failed before *)
Theorem C20_one_mode (R : rcfType) svd (X : tensor R) n (rank : option ttrank) rk :
  svd_red_contract svd -> wf X -> tshape X = [:: n] -> (0 < n)%N -> process_tt_rank (svd_rank X rank) (tshape X) true = Ok rk ->
  tt_svd svd X rank = Err IndexError \/ tt_svd svd X rank = Err LinAlgError.
Proof.
move=> svdP w es np E; rewrite /tt_svd; have [a -> [wa sa ga]] := to_numpyE w; rewrite [bind (Ok a) _]/=.
rewrite -[if rank is Some r then r else _]/(svd_rank X rank) E [bind (Ok rk) _]/= es in sa *.
have -> : rk = [::].
  have ps : all (fun n => 0 < n)%N (tshape X) by rewrite es /= np.
  by have [h _] := process_size ps E; apply: size0nil; rewrite h es.
rewrite (_ : [:: 0%N] = iota 0 1) // matricize_lead ?/ndim ?sa // [bind (Ok _) _]/=; set M := Nd _ _.
have mM : is_mat M n 1 by split=> //; move: wa; rewrite /nwf /M sa /= !muln1.
by have := svdP M n 1%N mM; case: (svd M) => [[[U Sv] V]|[]] //= _; [left|right].
Qed.
Print Assumptions C20_shape_and_ranks.
Print Assumptions C20_error_is_discarded.
Print Assumptions C20_projection.
Print Assumptions C20_nothing_dropped.
Print Assumptions C20_bondwise_optimal.
Print Assumptions C20_quasi_optimal.
Print Assumptions C20_exact_rank.
Print Assumptions C20_default_exact.
Print Assumptions C20_one_mode.

(* non-vacuity: the hypotheses hold for a 2 x 3 x 2 train (to_numpy'd) with ranks (1, 2) and the
   routine svd_red0 of LinExist.v *)
From Verif Require Import Prop_LinEx.
Example C20_nonvacuous (R : rcfType) : [/\ svd_red_contract (@svd_red0 R), wf (TT (ex_cs R)), (1 < size (tshape (TT (ex_cs R))))%N,
  all (fun n => 0 < n)%N (tshape (TT (ex_cs R))) & process_tt_rank (RTuple [:: 1; 2]%N) (tshape (TT (ex_cs R))) false = Ok [:: 1; 2]%N].
Proof. by split; [exact: svd_red0P|by []|by []|by []|by []]. Qed.
