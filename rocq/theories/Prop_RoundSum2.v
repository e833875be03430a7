(* Property C44 continued: the accuracy of round_tt_sum (tt_gmres.py:260-305) for the methods
   "exact" and "pairwise".  [full_budget s rk]: the budget rk is at least
   min(n_0 .. n_k, n_(k+1) .. n_(d-1)), the largest rank a tensor of shape s can have, at every bond.
   [unfolding] and \rank as in Prop_Opt.v. *)
From Coq Require Import String Ascii NArith.
From mathcomp Require Import all_ssreflect all_algebra.
From mathcomp Require Import zify.
From Verif Require Import Py Nd Utils Tensor TensorNum Sketch Mpo Gmres Spec LinSpec RecSpec RoundSpec SkSpec MpoSpec GmresSpec.
From Verif Require Import NdThy Ein TensorThy TensorThy2 TensorThy3 ChainThy SweepThy NormThy RoundThy RoundThy2 TrimThy SkThy14 RankThy.
From Verif Require Import GmresThy1 RoundSumThy Prop_Num Prop_Opt Prop_Tol Prop_RoundSum.
Set Implicit Arguments. Unset Strict Implicit. Unset Printing Implicit Defensive.
Import GRing.Theory Num.Theory Order.POrderTheory.
Local Open Scope ring_scope.
Notation allpos := (all (fun n => 0 < n)%N).

Definition full_rank (s : seq nat) (k : nat) : nat := minn (prods (take k.+1 s)) (prods (drop k.+1 s)).
Definition full_budget (s rk : seq nat) : Prop := forall k, (k < (size s).-1)%N -> (full_rank s k <= nth 0 rk k)%N.

Lemma full_pos s k : allpos s -> (0 < full_rank s k)%N.
Proof.
move=> hs; rewrite /full_rank leq_min; apply/andP; split; apply: prods_gt0; apply/allP => x.
  by move/mem_take; apply: (allP hs).
by move/mem_drop; apply: (allP hs).
Qed.

Lemma full_feasible s : allpos s -> (0 < size s)%N -> feasible s (mkseq (full_rank s) (size s).-1).
Proof.
move=> hs s0; pose Lf i := prods (take i s); pose Rt i := prods (drop i s).
have LS i : (i < size s)%N -> Lf i.+1 = (Lf i * nth 0 s i)%N by move=> h; rewrite /Lf (take_nth 0%N) // -cats1 prods_cat /= muln1.
have RS i : (i < size s)%N -> Rt i = (nth 0 s i * Rt i.+1)%N by move=> h; rewrite /Rt (drop_nth 0%N).
have L0 : Lf 0%N = 1%N by rewrite /Lf take0.
have Re : Rt (size s) = 1%N by rewrite /Rt drop_size.
have Lp i : (0 < Lf i)%N by apply: prods_gt0; apply/allP => x /mem_take; apply: (allP hs).
have Rp i : (0 < Rt i)%N by apply: prods_gt0; apply/allP => x /mem_drop; apply: (allP hs).
have np i : (i < size s)%N -> (0 < nth 0 s i)%N by move=> h; apply: (allP hs); exact: mem_nth.
have nE i : (i <= size s)%N -> nth 0%N (1%N :: mkseq (full_rank s) (size s).-1 ++ [:: 1%N]) i = minn (Lf i) (Rt i).
  case: i => [|i] hi; first by rewrite L0 /=; apply/esym/minn_idPl; exact: Rp.
  rewrite /= nth_cat size_mkseq; case: ltnP => h; first by rewrite nth_mkseq.
  have -> : i = (size s).-1 by clear -hi h; lia.
  by rewrite subnn prednK // Re; apply/esym/minn_idPr; exact: Lp.
split; first by rewrite size_mkseq.
move=> i hi; cbv zeta; rewrite !nE ?(ltnW hi) //; have := np i hi; move: (LS i hi) (RS i hi) => -> ->.
by move: (Lf i) (Rt i.+1) (nth 0%N s i) => a b n n0; split; clear -n0; nia.
Qed.

Lemma full_trim s rk : allpos s -> (0 < size s)%N -> size rk = (size s).-1 -> full_budget s rk ->
  allpos rk /\ full_budget s (trim_ranks s rk).
Proof.
move=> hs s0 sr fb; have pr : allpos rk.
  by apply/(all_nthP 0%N) => k; rewrite sr => hk; apply: leq_trans (fb k hk); exact: full_pos.
split=> //; have [_ _ _ tg] := trim_bounds hs pr s0 sr.
have [|_ h] := tg _ (full_feasible hs s0).
  split; first by rewrite size_mkseq.
  by move=> k; case: (ltnP k (size s).-1) => hk; [rewrite nth_mkseq //; exact: fb|rewrite nth_default ?size_mkseq].
by move=> k hk; have := h k; rewrite nth_mkseq.
Qed.

Section RoundSum2.
Variable R : rcfType.
Notation arr := (nd R).
Notation tensor := (tensor R).
Variables (qr : arr -> res (arr * arr)) (svd : arr -> res (arr * arr * arr)).
Variable to_normal : N -> R.
Variable tt_random : seq nat -> seq nat -> N -> seq arr.
Variable stream : N -> nat -> R.
Variable offset : N -> nat -> N.
Variable right_seed_of : N -> nat -> N.
Variable lstsq : arr -> arr -> res arr.
Variable qr_econ : arr -> res (arr * arr).
Hypotheses (qrP : qr_contract qr) (svdP : svd_contract svd).
Notation round_tt_sum := (round_tt_sum qr svd to_normal tt_random stream offset right_seed_of lstsq qr_econ).

Lemma full_unfolding s (x : seq nat -> R) k : (\rank (unfolding s x k) <= full_rank s k)%N.
Proof. by rewrite /full_rank leq_min rank_leq_row rank_leq_col. Qed.

Lemma numpy_sum s (Xs : seq tensor) (cs : seq arr) (x : arr) : wf (TSum s Xs) -> to_numpy (TSum s Xs) = Ok x -> wf_tt cs -> tshape (TT cs) = s ->
  (forall i, inb s i -> den (TT cs) i = \sum_(X <- Xs) den X i) -> to_numpy (TT cs) = Ok x.
Proof.
move=> wX ex w e g; have [x' ex' [wx shx gx]] := to_numpyE wX; move: ex'; rewrite ex => -[ex']; rewrite -{x'}ex' in wx shx gx.
have [a -> [wa sa ga]] := to_numpyE (w : wf (TT cs)); congr Ok.
apply: nd_ext => //; first by rewrite sa shx [LHS]e.
rewrite sa => i hi; rewrite ga // g -?e //; have hi' : inb s i by rewrite -e.
by rewrite gx // den_sum.
Qed.

(* "exact" without tolerance: nothing is lost if the ranks of the unfoldings are within the budget *)
Theorem C44_exact_rank ent X s max_rank rk eps f x : pos_sum s X -> (1 < size s)%N ->
  process_tt_rank max_rank s false = Ok rk -> allpos rk -> (eps = None \/ eps = Some 0) -> to_numpy X = Ok x ->
  (forall k, (k < (size s).-1)%N -> (\rank (unfolding s (get x) k) <= nth 0 rk k)%N) ->
  or_linalg (round_tt_sum ent X max_rank eps RExact f) (fun Y => to_numpy Y = Ok x).
Proof.
move=> hX s1 hp rk0 e0 ex hr; have [wX sX] := train_sum_wf (pos_sum_train hX).
move: hX ex wX sX => /pos_sumP[Xs -> [n h]] ex wX _; rewrite /Gmres.round_tt_sum [tensors_of _]/=; cbn [bind].
have [cs -> [w e p g]] := add_all_sum s1 n h; cbn [bind].
have [rk' hp'] := process_true hp; have ec := numpy_sum wX ex w e g.
have ra : round_args cs (Some max_rank) false by split=> //; exists rk'; rewrite e.
have sc : size cs = size s by rewrite -e size_map.
have sx : nshape x = s.
  by have [x' ex' [_ sx _]] := to_numpyE wX; move: ex'; rewrite ex => -[ex']; rewrite -{x'}ex' in sx.
have := @C14_exact_rank R qr svd cs eps max_rank false rk x qrP svdP ra e0; rewrite e sc sx => /(_ hp rk0 ec hr).
by case: (tt_round _ _ _ _ _ _) => [out|er].
Qed.

(* "exact" with a tolerance e and a full budget: the relative error is at most
   e * sqrt(sum_k (full_rank k - 1)) *)
Theorem C44_exact_tolerance ent X s max_rank rk e f x : pos_sum s X -> (1 < size s)%N ->
  process_tt_rank max_rank s false = Ok rk -> full_budget s rk -> 0 <= e -> to_numpy X = Ok x ->
  or_linalg (round_tt_sum ent X max_rank (Some e) RExact f) (fun Y => exists2 y, to_numpy Y = Ok y & nshape y = nshape x /\
    Num.sqrt (sum_idx s (fun i => (get x i - get y i) ^+ 2)) <=
      e * Num.sqrt (\sum_(0 <= k < (size s).-1) (full_rank s k).-1)%:R * Num.sqrt (sum_idx s (fun i => get x i ^+ 2))).
Proof.
move=> hX s1 hp fb e0 ex; have [wX sX] := train_sum_wf (pos_sum_train hX).
move: hX ex wX sX => /pos_sumP[Xs -> [n h]] ex wX _; rewrite /Gmres.round_tt_sum [tensors_of _]/=; cbn [bind].
have [cs -> [w es p g]] := add_all_sum s1 n h; cbn [bind].
have [rk' hp'] := process_true hp; have ec := numpy_sum wX ex w es g.
have ra : round_args cs (Some max_rank) false by split=> //; exists rk'; rewrite es.
have sc : size cs = size s by rewrite -es size_map.
have sx : nshape x = s.
  by have [x' ex' [_ sx _]] := to_numpyE wX; move: ex'; rewrite ex => -[ex']; rewrite -{x'}ex' in sx.
have lf k : (largest cs k <= full_rank s k)%N by rewrite /largest es; exact: geq_minr.
have am : ample cs (Some max_rank).
  by exists rk; rewrite ?es // => k; rewrite sc => hk; apply: leq_trans (lf k) (fb k hk).
have W : or_linalg (tt_round qr svd cs (Some e) (Some max_rank) false) (fun out => wf (TT out) /\ tshape (TT out) = tshape (TT cs)).
  have hp2 : process_tt_rank max_rank (tshape (TT cs : tensor)) true = Ok rk' by rewrite es.
  by have := roundP qrP svdP (Some e) ra hp2; case: (tt_round _ _ _ _ _ _) => [out|er] //= [].
have := C14_tolerance_relative qrP svdP ra am e0; move: W; case: (tt_round _ _ _ _ _ _) => [out|er] // [wo so].
rewrite /or_linalg; cbn [bind] => -[a [b [ea eb H]]]; move: ea; rewrite ec => -[ea]; rewrite -{a}ea sx sc in H; exists b => //.
split; first by have [b' eb' [_ sb _]] := to_numpyE wo; move: eb'; rewrite eb => -[->]; rewrite sb so sx es.
apply: le_trans H _; rewrite ler_wpmul2r ?sqrtr_ge0 // ler_wpmul2l //; apply: ler_wsqrtr; rewrite ler_nat.
by apply: leq_sum => k _; have := lf k; clear; lia.
Qed.

(* "pairwise" without tolerance and a full budget: nothing is lost *)
Lemma pair_fold_full s Xs cs eps max_rank rk : (1 < size s)%N -> process_tt_rank max_rank s false = Ok rk -> full_budget s rk ->
  (eps = None \/ eps = Some 0) ->
  wf_tt cs -> tshape (TT cs) = s -> pos_tt cs -> all (pos_train s) Xs ->
  or_linalg (foldM (fun cs Y => do ds <- cores_of Y; do es <- tt_add cs ds; tt_round qr svd es eps (Some max_rank) false) cs Xs)
   (fun cs' => [/\ wf_tt cs', tshape (TT cs') = s & forall i, inb s i -> den (TT cs') i = den (TT cs) i + \sum_(X <- Xs) den X i]).
Proof.
move=> s1 hp fb he; have s0 : (0 < size s)%N by clear -s1; lia.
elim: Xs cs => [|Y Ys IH] cs w e p; first by move=> _; split=> // i hi; rewrite big_nil addr0.
rewrite [foldM _ _ _]/= [all _ _]/= => /andP[/pos_trainP[ds -> [w' e' p']] h].
rewrite [cores_of _]/=; cbn [bind]; have [es -> [we se pe ge]] := tt_add_pos s1 w e p w' e' p'; cbn [bind].
have hs : allpos s by move: p; rewrite (pos_ttE w) e => /andP[].
have [_ srk] := SkThy9.process_size hp erefl; have [rk0 _] := full_trim hs s0 srk fb.
have [rk' hp'] := process_true hp.
have ra : round_args es (Some max_rank) false by split=> //; exists rk'; rewrite se.
have [a ea [wa sa ga]] := to_numpyE (we : wf (TT es)).
have X : or_linalg (tt_round qr svd es eps (Some max_rank) false) (fun out => within s rk (TT out) /\ to_numpy (TT out) = Ok a).
  have := tt_round_within qrP svdP eps s0 we se pe hp.
  have := @C14_exact_rank R qr svd es eps max_rank false rk a qrP svdP ra he; rewrite se => /(_ hp rk0 ea).
  case: (tt_round _ _ _ _ _ _) => [out|er] //= H hw; split=> //; apply: H => k hk.
  rewrite sa [tshape _]se; apply: leq_trans (full_unfolding _ _ _) (fb k _); move: hk.
  by rewrite -(size_map (fun C => dim C 1%N) es) [map _ _]se.
apply: or_bind X _ => out [ho eo]; have po := within_pos hs ho; have [_ [<-] [wo so _ _]] := ho.
apply: or_imp (IH out wo so po h) _ => cs' [w2 s2 g2]; split=> // i hi; rewrite g2 // big_cons addrA; congr (_ + _).
have [b eb [_ sb gb]] := to_numpyE (wo : wf (TT out)); move: eb; rewrite eo => -[eb]; rewrite -eb in gb.
by rewrite -gb ?so // ga ?se // ge.
Qed.

Theorem C44_pairwise_full ent X s max_rank rk eps f x : pos_sum s X -> (1 < size s)%N ->
  process_tt_rank max_rank s false = Ok rk -> full_budget s rk -> (eps = None \/ eps = Some 0) -> to_numpy X = Ok x ->
  or_linalg (round_tt_sum ent X max_rank eps RPairwise f) (fun Y => to_numpy Y = Ok x).
Proof.
move=> hX s1 hp fb he ex; have [wX sX] := train_sum_wf (pos_sum_train hX).
move: hX ex wX sX => /pos_sumP[Xs -> [n h]] ex wX _; rewrite /Gmres.round_tt_sum [tensors_of _]/=; cbn [bind].
case: Xs n h ex wX => [|X0 Xs] // _ /andP[/pos_trainP[cs -> [w e p]] h] ex wX.
rewrite [add_all _ _]/=; apply: or_bind; first exact: (pair_fold_full s1 hp fb he w e p h).
move=> cs' [w' e' g']; apply: numpy_sum wX ex w' e' _ => i hi; by rewrite g' // big_cons.
Qed.
End RoundSum2.

(* the hypotheses are satisfiable: the sum of C44_nonvacuous with max_rank = 3 *)
Example C44_full_nonvacuous (R : rcfType) :
  pos_sum [:: 3; 3]%N (TSum [:: 3; 3]%N [:: TT (big_train R); TT [:: zeros R [:: 1; 3; 1]; zeros R [:: 1; 3; 1]]%N])
  /\ process_tt_rank (RInt 3) [:: 3; 3]%N false = Ok [:: 3%N] /\ full_budget [:: 3; 3]%N [:: 3%N].
Proof. by split=> //; split=> // -[|k]. Qed.
Print Assumptions C44_exact_rank.
Print Assumptions C44_exact_tolerance.
Print Assumptions C44_pairwise_full.
