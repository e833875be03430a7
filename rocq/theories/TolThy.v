(* The tolerance of TensorTrain.round (tensor.py:586-650): the rank budget does not cut anything
   when it is at least the largest ranks the train can need.  Proofs for Prop_Tol.v. *)
From mathcomp Require Import all_ssreflect all_algebra.
From mathcomp Require Import zify.
From Verif Require Import Py Nd NdThy Utils Tensor Spec LinSpec ChainThy TensorThy2 TensorThy4 GatherThy DotThy TrimThy.
From Verif Require Import TensorNum SweepThy NormThy RoundSpec RoundThy ErrThy RoundThy2.
From Verif Require Import SkThy14 PrecThy.
Set Implicit Arguments. Unset Strict Implicit. Unset Printing Implicit Defensive.
Import GRing.Theory Num.Theory Order.TTheory.

Section Nat.
Variables (s : seq nat) (rho : nat -> nat).
Notation d := (size s).
Hypothesis d0 : 0 < d.
Hypothesis s0 : all (fun n => 0 < n) s.
Hypothesis rho0 : forall k, k < d.-1 -> 0 < rho k.
Hypothesis rho1 : 1 < d -> rho 0 <= nth 0 s 0.
Hypothesis rho2 : forall k, k.+1 < d.-1 -> rho k.+1 <= rho k * nth 0 s k.+1.

Fixpoint tb j := if j is j'.+1 then minn (rho (d.-1 - j)) (nth 0 s (d.-1 - j') * tb j') else 1.
Definition tk k := tb (d.-1 - k).

Lemma n0 k : k < d -> 0 < nth 0 s k. Proof. by move=> h; apply: (allP s0); apply: mem_nth. Qed.
Lemma tk_last : tk d.-1 = 1. Proof. by rewrite /tk subnn. Qed.
Lemma tkS k : k < d.-1 -> tk k = minn (rho k) (nth 0 s k.+1 * tk k.+1).
Proof.
move=> h; rewrite /tk; have -> : d.-1 - k = (d.-1 - k.+1).+1 by lia.
rewrite /=; congr (minn (rho _) (nth 0 s _ * _)); lia.
Qed.

Lemma tk_pos k : k <= d.-1 -> 0 < tk k.
Proof.
move=> h; rewrite -(subKn h); move: (d.-1 - k) (leq_subr k d.-1) => j {k h}; elim: j => [|j IH] hj.
  by rewrite subn0 tk_last.
have h : d.-1 - j.+1 < d.-1 by lia.
rewrite tkS // leq_min rho0 //=; have -> : (d.-1 - j.+1).+1 = d.-1 - j by lia.
by rewrite muln_gt0 IH ?n0 //; lia.
Qed.

Lemma nth_mkt i : 0 < i <= d -> nth 0 (1 :: mkseq tk d.-1 ++ [:: 1]) i = tk i.-1.
Proof.
case: i => //= i; rewrite nth_cat size_mkseq => h; case: ltnP => h1; first by rewrite nth_mkseq.
have -> : i = d.-1 by lia.
by rewrite subnn tk_last.
Qed.

Lemma tk_feasible : feasible s (mkseq tk d.-1).
Proof.
split; first by rewrite size_mkseq.
move=> i hi R; rewrite {}/R nth_mkt //= ; case: i hi => [|i] hi; last rewrite nth_mkt ?(ltnW hi) //=.
  rewrite mul1n; split; last by rewrite muln_gt0 n0 // tk_pos //.
  case: (leqP d.-1 0) => h; first by rewrite (_ : tk 0 = 1) ?n0 // -tk_last; congr tk; lia.
  by rewrite tkS //; apply: leq_trans (geq_minl _ _) _; apply: rho1; lia.
have h : i < d.-1 by lia.
split; last by rewrite tkS // geq_minr.
rewrite (tkS h) minnMl leq_min; apply/andP; split; last first.
  by rewrite mulnC mulnA leq_pmull // muln_gt0 n0.
case: (ltnP i.+1 d.-1) => h1; first by rewrite tkS //; apply: leq_trans (geq_minl _ _) (rho2 h1).
have -> : i.+1 = d.-1 by lia.
rewrite tk_last muln_gt0 rho0 // n0 //; lia.
Qed.

Lemma tk_cap k : k < d.-1 -> tk k <= minn (rho k) (minn (prods (take k.+1 s)) (prods (drop k.+1 s))).
Proof.
move=> h; rewrite !leq_min (tkS h) geq_minl -tkS //=.
have := feas_left tk_feasible d0 (i := k.+1); rewrite nth_mkt; last by lia.
move=> -> /=; last by lia.
have := feas_right tk_feasible d0 (i := k.+1); rewrite nth_mkt; last by lia.
by apply; lia.
Qed.

Lemma out_tk out : (forall k, k < d.-1 -> out k <= minn (rho k) (nth 0 s k.+1 * out k.+1)) -> out d.-1 <= 1 ->
  forall k, k <= d.-1 -> out k <= tk k.
Proof.
move=> H H1 k h; rewrite -(subKn h); move: (d.-1 - k) (leq_subr k d.-1) => j {k h}; elim: j => [|j IH] hj.
  by rewrite subn0 tk_last.
have h : d.-1 - j.+1 < d.-1 by lia.
have E : (d.-1 - j.+1).+1 = d.-1 - j by lia.
rewrite tkS //; apply: leq_trans (H _ h) _; rewrite E leq_min geq_minl /=.
by apply: leq_trans (geq_minr _ _) _; rewrite leq_mul2l IH ?orbT //; lia.
Qed.
End Nat.

Local Open Scope ring_scope.
Section Tol.
Variable R : rcfType.
Notation arr := (nd R).
Implicit Types (cs : seq arr).
Variable qr : arr -> res (arr * arr).
Variable svd : arr -> res (arr * arr * arr).
Hypothesis qrP : qr_contract qr.
Hypothesis svdP : svd_contract svd.
Notation N0 := (Nd [::] [::] : arr).

(* orthonormal columns are at most as many as rows *)
Lemma left_orth_wide (C : arr) : left_orth C -> (dim C 2 <= dim C 0 * dim C 1)%N.
Proof.
move=> H; pose n := dim C 1; pose M := \matrix_(p < (dim C 0 * n), b < dim C 2) get C [:: (p %/ n)%N; (p %% n)%N; b : nat].
have E : M^T *m M = 1%:M.
  apply/matrixP => b c; rewrite !mxE -(H b c (ltn_ord b) (ltn_ord c)) -/n.
  rewrite (eq_bigr (fun p : 'I_(dim C 0 * n) => (fun q => get C [:: (q %/ n)%N; (q %% n)%N; b : nat] * get C [:: (q %/ n)%N; (q %% n)%N; c : nat]) (p : nat))); last by move=> p _; rewrite !mxE.
  rewrite -(big_mkord xpredT (fun q => get C [:: (q %/ n)%N; (q %% n)%N; b : nat] * get C [:: (q %/ n)%N; (q %% n)%N; c : nat])) sum_nat_mul.
  apply: eq_bigr => a _; apply: eq_big_nat => k /andP[_ hk].
  have n0 : (0 < n)%N by apply: leq_ltn_trans hk.
  by rewrite divnMDl // (divn_small hk) addn0 modnMDl (modn_small hk).
have /mxrankS : ((1%:M : 'M[R]_(dim C 2)) <= M)%MS by apply/submxP; exists M^T.
by rewrite mxrank1 => h; apply: leq_trans h (rank_leq_row _).
Qed.

Definition bcap cs k := minn (nth 0%N (tt_rank cs) k)
  (minn (prods (take k.+1 (tshape (TT cs : tensor R)))) (prods (drop k.+1 (tshape (TT cs : tensor R))))).

(* the squared error when the budget is at least the largest ranks the train can need *)
Lemma tol_core cs rk Rq r (eps : R) : wf_tt cs -> pos_tt cs -> all_but_last (fun C => left_orth C) cs ->
  size Rq = (size cs).-1 -> rk = trim_ranks (tshape (TT cs : tensor R)) Rq ->
  (forall k, (k < (size cs).-1)%N -> (bcap cs k <= nth 0%N Rq k)%N) ->
  round_post_tt eps cs rk r -> 0 <= eps ->
  (forall k, (k < (size cs).-1)%N -> (nth 0%N (tt_rank r.1) k <= bcap cs k)%N) /\
  sqdist (TT cs) (TT r.1) <= eps ^+ 2 * sqnorm_of (TT cs)
    * (\sum_(0 <= k < (size cs).-1) (bcap cs k - nth 0%N (tt_rank r.1) k))%:R.
Proof.
move=> w p lo szR erk hR [w' S' [_ p'] [_ _ [sz tc] D] [-> _]] e0.
set s := tshape (TT cs : tensor R) in erk; have sp : all (fun n => (0 < n)%N) s := pos_shape p.
have ss : size s = size cs by rewrite size_map.
have sc0 : (0 < size cs)%N by case: (cs) w.
have ns k : (k < size cs)%N -> nth 0%N s k = dim (nth N0 cs k) 1 by move=> h; rewrite (nth_map N0).
have sr : size r.1 = size cs by move/(f_equal size): S'; rewrite /= !size_map.
have nr k : (k < size cs)%N -> nth 0%N s k = dim (nth N0 r.1 k) 1 by move=> h; rewrite /s -S' (nth_map N0) // sr.
have L : links 1 cs 1 by case/andP: w.
have L' : links 1 r.1 1 by case/andP: w'.
pose rho k := nth 0%N (tt_rank cs) k; pose out k := dim (nth N0 r.1 k) 2.
have rhoE k : (k < (size cs).-1)%N -> rho k = dim (nth N0 cs k) 2 by move=> h; apply: (tt_rank_nth L); clear -h; lia.
have outE k : (k < (size cs).-1)%N -> nth 0%N (tt_rank r.1) k = out k by move=> h; apply: (tt_rank_nth L'); rewrite sr; clear -h; lia.
have wide k : (k < (size cs).-1)%N -> (dim (nth N0 cs k) 2 <= dim (nth N0 cs k) 0 * nth 0%N s k)%N.
  move=> h; have h1 : (k.+1 < size cs)%N by clear -h; lia.
  by rewrite ns ?(ltnW h1) //; apply/left_orth_wide/lo.
have rho0 k : (k < (size s).-1)%N -> (0 < rho k)%N.
  rewrite ss => h; rewrite rhoE //; have h1 : (k < size cs)%N by clear -h; lia.
  by have /andP[] := allP p _ (mem_nth N0 h1).
have rho1 : (1 < size s)%N -> (rho 0 <= nth 0 s 0)%N.
  rewrite ss => h; have h0 : (0 < (size cs).-1)%N by clear -h; lia.
  rewrite rhoE //; apply: leq_trans (wide 0%N h0) _.
  have -> : dim (nth N0 cs 0) 0 = 1%N by case: (cs) L sc0 => //= C cs' /and3P[_ /eqP sC _] _; have [-> _ _] := dim3 sC.
  by rewrite mul1n.
have rho2 k : (k.+1 < (size s).-1)%N -> (rho k.+1 <= rho k * nth 0 s k.+1)%N.
  rewrite ss => h; rewrite !rhoE ?(ltnW h) //; apply: leq_trans (wide _ h) _.
  by rewrite (links_nth L) //; clear -h; lia.
have d0 : (0 < size s)%N by rewrite ss.
have F := tk_feasible d0 sp rho0 rho1 rho2; have TC := tk_cap d0 sp rho0 rho1 rho2.
have TS := tkS d0 sp rho1.
have R0 : all (fun n => (0 < n)%N) Rq.
  apply/(all_nthP 0%N) => k; rewrite szR -ss => h; have h' := h; rewrite ss in h'; apply: leq_trans (hR k h').
  by apply: leq_trans (TC k h); apply: tk_pos => //; exact: ltnW.
have bel : below (mkseq (tk s rho) (size s).-1) Rq.
  split; first by rewrite size_mkseq ss szR.
  move=> k; case: (ltnP k (size s).-1) => h; last by rewrite nth_default ?size_mkseq.
  by rewrite nth_mkseq //; apply: leq_trans (TC k h) (hR k _); rewrite -ss.
have [_ _ _ /(_ _ F bel) [_ trk]] := trim_bounds sp R0 d0 (etrans szR (congr1 predn (esym ss))).
rewrite -erk in trk.
have out1 : (out (size s).-1 <= 1)%N.
  rewrite ss /out -sr; case/lastP: (r.1) sr L' => [|l C] sr L'; first by clear -sr sc0; rewrite -sr in sc0.
  by have [r0 [_ _ sC]] := links_rcons L'; rewrite size_rcons /= nth_rcons ltnn eqxx; have [_ _ ->] := dim3 sC.
have tc' k : (k < (size s).-1)%N -> (out k <= minn (rho k) (nth 0 s k.+1 * out k.+1))%N.
  by rewrite ss => h; have := tc k h; rewrite outE // /tcap -nr //; clear -h; lia.
have outt := out_tk d0 sp rho1 tc' out1.
have tct k : (k < (size s).-1)%N -> (tcap cs r.1 k <= tk s rho k)%N.
  move=> h; have h' := h; rewrite ss in h'.
  rewrite TS // /tcap -nr; last by clear -h'; lia.
  by rewrite leq_min geq_minl /=; apply: leq_trans (geq_minr _ _) _; rewrite leq_mul2l outt ?orbT.
have ob k : (k < (size cs).-1)%N -> (nth 0%N (tt_rank r.1) k <= bcap cs k)%N.
  move=> h; rewrite outE //; apply: leq_trans (outt k _) (TC k _); rewrite ss //; exact: ltnW.
split=> //.
have := @sum_sq_bound R r.2 (fun k => bcap cs k - nth 0%N (tt_rank r.1) k)%N (eps ^+ 2 * sqnorm_of (TT cs)).
rewrite sz; apply; last by rewrite mulr_ge0 ?sqr_ge0 ?sqnorm_of_ge0.
move=> k h; have h' := h; rewrite -ss in h'; have [D1 _ D3] := D k h.
have b1 : (tcap cs r.1 k <= bcap cs k)%N by apply: leq_trans (tct k h') (TC k h').
split; first by apply: leq_trans D1 _; apply: leq_sub2r.
case: (ltnP (nth 0%N (tt_rank r.1) k) (nth 0%N rk k)) => hh; first exact: D3.
have : size (nth [::] r.2 k) = 0%N.
  apply/eqP; rewrite -leqn0; apply: leq_trans D1 _; rewrite leqn0 subn_eq0; apply: leq_trans hh.
  by apply: leq_trans (tct k h') _; have := trk k; rewrite nth_mkseq.
by case: (nth [::] r.2 k).
Qed.

Lemma bcap_mono cs tt1 k : tshape (TT tt1) = tshape (TT cs : tensor R) -> below (tt_rank tt1) (tt_rank cs) ->
  (bcap tt1 k <= bcap cs k)%N.
Proof. by move=> S [_ h]; rewrite /bcap S leq_min geq_minr andbT; apply: leq_trans (geq_minl _ _) _. Qed.

Definition request_ok cs (m : option ttrank) : Prop :=
  if m is Some m' then exists2 Rq, process_tt_rank m' (tshape (TT cs : tensor R)) false = Ok Rq &
     forall k, (k < (size cs).-1)%N -> (bcap cs k <= nth 0%N Rq k)%N else True.

Lemma tolP cs eps m o : round_args cs m o -> request_ok cs m -> 0 <= eps ->
  or_linalg (tt_round_g qr svd cs (Some eps) m o) (fun r =>
   [/\ wf_tt r.1, tshape (TT r.1) = tshape (TT cs),
   (forall k, (k < (size cs).-1)%N -> (0 < nth 0%N (tt_rank r.1) k <= bcap cs k)%N) &
   sqdist (TT cs) (TT r.1) <= eps ^+ 2 * sqnorm_of (TT cs)
    * (\sum_(0 <= k < (size cs).-1) (bcap cs k - nth 0%N (tt_rank r.1) k))%:R]).
Proof.
move=> [w p oP mP] ro e0.
have := tt_round_gP qrP svdP (Some eps) w p oP mP; case: (tt_round_g _ _ _ _ _ _) => [r|e] //= -[tt1 [rk [H1 H2 H3 H4]]].
have [srk _] := process_size (pos_shape p) H2.
have srk' : size rk = (size cs).-1 by rewrite srk /= size_map.
have [w' S' [_ p'] _ _] := H3.
have sr : size r.1 = size cs by move/(f_equal size): S'; rewrite /= !size_map.
have pos k : (k < (size cs).-1)%N -> (0 < nth 0%N (tt_rank r.1) k)%N.
  move=> h; rewrite (@tt_rank_nth _ 1 _ 1) ?sr; [|by case/andP: w'|by clear -h; lia].
  have h1 : (k < size r.1)%N by rewrite sr; clear -h; lia.
  by have /andP[] := allP p' _ (mem_nth N0 h1).
suff [X Y] : (forall k, (k < (size cs).-1)%N -> (nth 0%N (tt_rank r.1) k <= bcap cs k)%N) /\
   sqdist (TT cs) (TT r.1) <= eps ^+ 2 * sqnorm_of (TT cs)
    * (\sum_(0 <= k < (size cs).-1) (bcap cs k - nth 0%N (tt_rank r.1) k))%:R.
  by split=> // k hk; rewrite pos //= X.
have main tt2 : wf_tt tt2 -> tshape (TT tt2) = tshape (TT cs : tensor R) -> below (tt_rank tt2) (tt_rank cs) ->
   all_but_last (fun C => left_orth C) tt2 -> pos_tt tt2 -> (forall i, inb (tshape (TT cs)) i -> den (TT tt2) i = den (TT cs) i) ->
   tt1 = tt2 -> (forall k, (k < (size cs).-1)%N -> (nth 0%N (tt_rank r.1) k <= bcap cs k)%N) /\
   sqdist (TT cs) (TT r.1) <= eps ^+ 2 * sqnorm_of (TT cs)
    * (\sum_(0 <= k < (size cs).-1) (bcap cs k - nth 0%N (tt_rank r.1) k))%:R.
  move=> w1 S1 B1 A1 P1 G1 E; rewrite {}E in H1 H2 H4.
  have sz : size tt2 = size cs by move/(f_equal size): S1; rewrite /= !size_map.
  have srk2 : size rk = (size tt2).-1 by rewrite sz.
  have := round_coreP svdP eps w1 P1 A1 srk2; rewrite H4 /= => post.
  have [Rq [sR eR hR]] : exists Rq, [/\ size Rq = (size tt2).-1, rk = trim_ranks (tshape (TT tt2 : tensor R)) Rq &
     forall k, (k < (size tt2).-1)%N -> (bcap tt2 k <= nth 0%N Rq k)%N].
    case: m mP ro H2 {H1 H4} => [m'|] mP ro H2.
      case: ro => Rq E hR; exists Rq; have := H2; rewrite (process_trimE true E) => -[<-].
      have [sR _] := process_size (pos_shape p) E.
      split; [by rewrite sR size_map sz|by rewrite S1|move=> k hk].
      by apply: leq_trans (bcap_mono k S1 B1) (hR k _); rewrite -sz.
    have s0 : (0 < size (tshape (TT cs : tensor R)))%N by rewrite size_map; case: (cs) w.
    move: H2; rewrite (process_tuple _ _ s0); case: ifP => // _ [<-]; exists (tt_rank tt2).
    by split=> //; [rewrite size_tt_rank|rewrite S1|move=> k hk; exact: geq_minl].
  have [T1 T2] := tol_core w1 P1 A1 sR eR hR post e0.
  have SC : same_tensor (TT cs : tensor R) (TT tt2) by split=> // i hi; rewrite G1.
  split; first by move=> k hk; apply: leq_trans (T1 k _) (bcap_mono k S1 B1); rewrite sz.
  rewrite (@sqdist_same _ cs tt2) // ?S1 // (sqnorm_same SC).
  apply: le_trans T2 _; apply: ler_wpmul2l; first by rewrite mulr_ge0 ?sqr_ge0 ?sqnorm_of_ge0.
  by rewrite ler_nat sz; apply: leq_sum => k _; apply: leq_sub2r; apply: bcap_mono.
case: o oP H1 H2 H4 {srk} main => oP H1 H2 H4 main.
  by have [] := main cs w erefl (conj erefl (fun=> leqnn _)) (oP isT) p (fun _ _ => erefl) H1.
case: (H1) => w1 S1 R1 [A1 P1] G1.
have A1' : all_but_last (fun C => left_orth C) tt1 by move=> k /A1[].
by have [] := main tt1 w1 S1 (all2_below R1) A1' P1 G1 erefl.
Qed.
End Tol.
