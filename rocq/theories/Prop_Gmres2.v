(* Property C45 continued: tt_sum_gmres (tt_gmres.py:308-432) with the rounding methods "exact" and
   "pairwise" and a budget max_rank that is at least the largest ranks a tensor of the shape can
   have ([full_budget], Prop_RoundSum2.v): what C45_exact and C45_residual_bound say then, without
   assumptions on the rounding errors. *)
From Coq Require Import String Ascii NArith.
From mathcomp Require Import all_ssreflect all_algebra.
From mathcomp Require Import zify.
From Verif Require Import Py Nd Utils Tensor TensorNum Sketch Mpo Gmres Spec LinSpec RecSpec RoundSpec SkSpec MpoSpec GmresSpec ArnSpec GmRunSpec.
From Verif Require Import NdThy ChainThy TensorThy TensorThy3 GmresThy1 RoundSumThy GmresThy2 GmresMath ArnThy GmresThy3 GmresThy4 GmresThy5.
From Verif Require Import TensorThy2 SweepThy RoundThy RoundThy2 RankThy TrimThy SkThy14 NormThy Prop_RoundSum Prop_RoundSum2 Prop_Gmres.
Set Implicit Arguments. Unset Strict Implicit. Unset Printing Implicit Defensive.
Import GRing.Theory Num.Theory Order.TTheory.
Local Open Scope ring_scope.

Section C45a.
Variable R : rcfType.
Notation arr := (nd R).
Notation tensor := (tensor R).
Variables (qr : arr -> res (arr * arr)) (svd : arr -> res (arr * arr * arr)).
Variable to_normal : N -> R.
Variable tt_random : seq nat -> seq nat -> N -> seq arr.
Variable stream : N -> nat -> R.
Variable offset : N -> nat -> N.
Variable right_seed_of : N -> nat -> N.
Variable lstsq : arr -> arr -> res arr.
Variable qr_econ : arr -> res (arr * arr).
Variables (solve_tri : arr -> arr -> res arr) (np_lstsq : arr -> arr -> res (arr * seq R)).
Variable ent : nat -> nat -> N.
Notation gmres := (tt_sum_gmres qr svd solve_tri to_normal tt_random stream offset right_seed_of lstsq qr_econ np_lstsq ent).
Hypotheses (qrP : qr_tri_contract qr) (svdP : svd_contract svd) (solP : solve_tri_contract solve_tri) (nplP : np_lstsq_contract np_lstsq).
Hypotheses (lstsqP : lstsq_contract lstsq) (qr_econP : qr_contract qr_econ) (rndP : tt_random_ok tt_random).

Variables (s rkf : seq nat) (fs : seq (ttmap R)) (pre : option (precond R)) (b : seq arr) (max_rank : ttrank) (final_rank : option ttrank)
  (x0 : option (seq arr)) (tol : R) (maxiter : nat) (sym : bool) (mf : rounding).
Hypothesis valid : gmres_valid qr fs s b max_rank pre final_rank x0 RExact mf rkf.
Notation op := (op_act fs pre s).                 (* the operator *)
Notation bp := (pre_act pre s (den (TT b))).      (* the right hand side *)
Notation bn := (norm2 s (den (TT b))).            (* what the reported residuals are divided by *)
Notation run := (gmres (MapSum fs s s) b max_rank pre final_rank x0 tol maxiter sym RExact mf).
Let s1 : (1 < size s)%N. Proof. exact: gv_modes valid. Qed.

Lemma norm2E (x : seq nat -> R) : norm2 s x = Num.sqrt (sum_idx s (fun i => x i ^+ 2)).
Proof. by rewrite /norm2 /ipr; congr Num.sqrt; apply: eq_sum_idx => i _; rewrite expr2. Qed.


(* rounding does not increase the norm *)
Lemma beta_le o beta : run = Ok o -> arnoldi s op sym bp (x0_of x0) (run_iters o) (run_inp o) (run_out o) beta (run_nu o) (run_H o) ->
  beta <= norm2 s (fun i => bp i - op (x0_of x0) i).
Proof.
move=> e a; have := run_ok to_normal stream offset right_seed_of ent qrP svdP solP nplP lstsqP qr_econP rndP tol maxiter sym valid.
rewrite e => -[mr [k [beta' [rs [hm h]]]]].
have h0 : (0 < 2 * k + 1)%N by rewrite addn1.
have := rp_call h h0; have [pX pY] := rp_trp h h0.
rewrite (arn_beta a) (_ : norm2 s (fun i => bp i - op (x0_of x0) i) = norm2 s (run_inp o 0)); last first.
  by rewrite !norm2E; congr Num.sqrt; apply: eq_sum_idx => i hi; rewrite (arn_inp0 a).
have [wX sX] := train_sum_wf (pos_sum_train pX); have [x ex [_ _ gx]] := to_numpyE wX.
move: (wX) pX pY ex sX gx; rewrite /run_inp /run_out -/(dT R).
move: (nth _ _ _).1 (nth _ _ _).2 => X Y {}wX pX pY ex sX gx.
have [wY sY] : wf Y /\ tshape Y = s by case/pos_trainP: pY => cs -> [w ec' _].
have [rk hrk rk0] := gv_rank valid; have hs : all (fun n => 0 < n)%N s by have [_ _ hh _] := gv_b valid.
have s0 : (0 < size s)%N by clear -s1; lia.
have [_ sm _ _] := process_trim hs hrk rk0 hm.
have := C44_exact to_normal tt_random stream offset right_seed_of lstsq qr_econ (proj1 qrP) svdP (ent 0%N) (eps_of (g_delta o) 0) (2, 1)%N pX s1 (process_rtuple s0 sm) ex.
rewrite /round_call => + ec; rewrite ec /or_linalg => -[_ [y ey [_ B]]].
have [y' ey' [_ _ gy]] := to_numpyE wY; move: ey'; rewrite ey => -[ey']; rewrite -{y'}ey' in gy.
rewrite !norm2E; apply: ler_wsqrtr; rewrite -subr_ge0; move: B.
rewrite [X in _ = X - _](eq_sum_idx (g := fun i => den X i ^+ 2)); last by move=> i hi; rewrite gx ?sX.
rewrite [X in _ = _ - X](eq_sum_idx (g := fun i => den Y i ^+ 2)); last by move=> i hi; rewrite gy ?sY.
by move=> <-; apply: sum_idx_ge0 => i; exact: sqr_ge0.
Qed.

(* an initial guess that solves the system makes the run fail: no result is returned *)
Theorem C45_exact_guess_fails : eqf s (op (x0_of x0)) bp -> forall o, run <> Ok o.
Proof.
move=> ex o e; have [beta [a [b0 _] _ _ _]] := C45_arnoldi qrP svdP solP nplP lstsqP qr_econP rndP valid e.
have := beta_le e a; rewrite norm2E (eq_sum_idx (g := fun=> 0)); last by move=> i hi; rewrite ex // subrr expr0n.
rewrite sum_idxE big1_seq // sqrtr0 => hb; move/eqP: b0; apply; apply/eqP; rewrite eq_le hb /=.
by rewrite (arn_beta a) sqrtr_ge0.
Qed.

(* the stopping rule is not invariant under scaling: started from 0 and without preconditioner, a right hand
   side of norm less than tolerance stops the iteration after one step *)
Theorem C45_small_rhs_stops o : run = Ok o -> x0 = None -> pre = None -> bn < tol -> run_iters o = 1%N.
Proof.
move=> e ex ep bt; have [beta [a [b0 _] _ _ _]] := C45_arnoldi qrP svdP solP nplP lstsqP qr_econP rndP valid e.
have bb : beta <= bn.
  have := beta_le e a; rewrite !norm2E (eq_sum_idx (g := fun i => den (TT b) i ^+ 2)) // => i hi; rewrite ex ep.
  have [o1 o2] := opL' valid; rewrite ep in o1 o2.
  have z : eqf s (fun i => -1 * (fun=> 0 : R) i + (fun=> 0 : R) i) (fun=> 0) by move=> j _; rewrite mulr0 addr0.
  by rewrite -[op_act fs None s (x0_of None) i](o1 _ _ z i hi) o2 // mulN1r addNr subr0.
have bp0 : 0 < beta by rewrite lt_def b0 (arn_beta a) sqrtr_ge0.
have bn0 : 0 < bn by apply: lt_le_trans bp0 bb.
have bn1 : bn != 0 by rewrite gt_eqF.
have [r er [r1 r2 _ _]] := C45_stop_rule qrP svdP solP nplP lstsqP qr_econP rndP valid e bn1.
have [r' [er' mon]] := C45_monotone qrP svdP solP nplP lstsqP qr_econP rndP valid e bn1.
have kk : (0 < run_iters o)%N.
  by have := C45_outcome to_normal stream offset right_seed_of ent qrP svdP solP nplP lstsqP qr_econP rndP tol maxiter sym valid; rewrite e => -[/andP[]].
apply/eqP; rewrite eqn_leq kk andbT leqNgt; apply/negP => k1.
have hb0 : r' 0%N = beta / bn.
  have [h0 _] := er' 0%N (leq0n _); move: h0.
  have := run_ok to_normal stream offset right_seed_of ent qrP svdP solP nplP lstsqP qr_econP rndP tol maxiter sym valid.
  rewrite e => -[mr [k [beta' [rs [hm h]]]]]; rewrite (rp_hres h) /= /fdiv (negPf bn1) => -[<-].
  by rewrite (arn_beta (rp_arn h)) (arn_beta a).
have r01 : r' 0%N <= 1 by rewrite hb0 ler_pdivr_mulr // mul1r.
have := r1 1%N k1; rewrite leNgt => /negP; apply; apply: le_lt_trans bt.
have [h1 h1p] := er' 1%N kk; move: (er 1%N kk); rewrite h1 => -[<-].
rewrite -[X in _ <= X]mul1r ler_pmul2r //; apply: exprn_ile1 => //.
by apply: le_trans (mon 0%N kk) r01.
Qed.
End C45a.

Section C45b.
Variable R : rcfType.
Notation arr := (nd R).
Notation tensor := (tensor R).
Variables (qr : arr -> res (arr * arr)) (svd : arr -> res (arr * arr * arr)).
Variable to_normal : N -> R.
Variable tt_random : seq nat -> seq nat -> N -> seq arr.
Variable stream : N -> nat -> R.
Variable offset : N -> nat -> N.
Variable right_seed_of : N -> nat -> N.
Variable lstsq : arr -> arr -> res arr.
Variable qr_econ : arr -> res (arr * arr).
Variables (solve_tri : arr -> arr -> res arr) (np_lstsq : arr -> arr -> res (arr * seq R)).
Variable ent : nat -> nat -> N.
Notation gmres := (tt_sum_gmres qr svd solve_tri to_normal tt_random stream offset right_seed_of lstsq qr_econ np_lstsq ent).
Hypotheses (qrP : qr_tri_contract qr) (svdP : svd_contract svd) (solP : solve_tri_contract solve_tri) (nplP : np_lstsq_contract np_lstsq).
Hypotheses (lstsqP : lstsq_contract lstsq) (qr_econP : qr_contract qr_econ) (rndP : tt_random_ok tt_random).

Variables (s rk rkf : seq nat) (fs : seq (ttmap R)) (pre : option (precond R)) (b : seq arr) (max_rank : ttrank) (final_rank : option ttrank)
  (x0 : option (seq arr)) (tol : R) (maxiter : nat) (sym : bool) (m mf : rounding).
Hypothesis valid : gmres_valid qr fs s b max_rank pre final_rank x0 m mf rkf.
Hypotheses (hrk : process_tt_rank max_rank s false = Ok rk) (full : full_budget s rk).
Notation op := (op_act fs pre s).                 (* the operator *)
Notation bp := (pre_act pre s (den (TT b))).      (* the right hand side *)
Notation bn := (norm2 s (den (TT b))).            (* what the reported residuals are divided by *)
Notation run := (gmres (MapSum fs s s) b max_rank pre final_rank x0 tol maxiter sym m mf).

Let s1 : (1 < size s)%N. Proof. exact: gv_modes valid. Qed.
Let s0 : (0 < size s)%N. Proof. by clear -s1; lia. Qed.
Let hs : all (fun n => 0 < n)%N s. Proof. by have [_ _ h _] := gv_b valid. Qed.

Lemma run_mr o : run = Ok o -> exists mr beta rs, [/\ run_post qr svd to_normal tt_random stream offset right_seed_of lstsq qr_econ ent s op bp (x0_of x0) sym tol bn maxiter mr m
   (odflt max_rank final_rank) (final_method m mf) rkf o (run_iters o) beta rs, process_tt_rank (RTuple mr) s false = Ok mr & full_budget s mr].
Proof.
move=> e; have := run_ok to_normal stream offset right_seed_of ent qrP svdP solP nplP lstsqP qr_econP rndP tol maxiter sym valid.
rewrite e => -[mr [k [beta [rs [hm h]]]]]; exists mr, beta, rs; rewrite (rp_iters h).
have [_ srk] := SkThy9.process_size hrk erefl; have [rk0 fb] := full_trim hs s0 srk full.
have [e1 sm _ _] := process_trim hs hrk rk0 hm.
by split=> //; [exact: process_rtuple|rewrite e1].
Qed.

Lemma entries_eq (X Y : tensor) x : wf X -> wf Y -> tshape X = s -> tshape Y = s -> to_numpy X = Ok x -> to_numpy Y = Ok x -> eqf s (den X) (den Y).
Proof.
move=> wX wY sX sY eX eY i hi; have [a ea [_ _ ga]] := to_numpyE wX; have [c ec [_ _ gc]] := to_numpyE wY.
move: ea ec; rewrite eX eY => -[ea] [ec]; rewrite -ga ?sX // -gc ?sY // -ea -ec //.
Qed.

(* With "exact" or "pairwise" rounding, a full budget and tolerance 0, every rounding is exact ... *)
Theorem C45_full_no_error o : run = Ok o -> (m = RExact \/ m = RPairwise) -> tol = 0 ->
  forall l, (l <= 2 * run_iters o)%N -> exact_call s (run_inp o) (run_out o) l.
Proof.
move=> e hm t0 l hl; have [mr [beta [rs [h hmr fb]]]] := run_mr e.
have hl' : (l < 2 * run_iters o + 1)%N by rewrite addn1 ltnS.
have := rp_call h hl'; have [pX pY] := rp_trp h hl'.
have e0 : eps_of (g_delta o) l = None \/ eps_of (g_delta o) l = Some 0.
  rewrite /eps_of; case: l {hl hl' pX pY} => [|l]; [by left|right]; congr Some; rewrite (rp_delta h) t0.
  case: (ltnP l.+1.-1./2 (run_iters o)) => hh; last by rewrite nth_default ?size_map ?size_iota.
  by rewrite (nth_map 0%N) ?size_iota // mul0r.
have [wX sX] := train_sum_wf (pos_sum_train pX); have [x ex _] := to_numpyE wX.
move: (wX) pX pY ex sX; rewrite /exact_call /run_inp /run_out -/(dT R).
move: (nth _ _ _).1 (nth _ _ _).2 => X Y {}wX pX pY ex sX ec.
have wsY : wf Y /\ tshape Y = s by case/pos_trainP: pY => cs -> [w ec' _].
suff eY : to_numpy Y = Ok x by apply: (entries_eq wX wsY.1 sX wsY.2 ex eY).
have [_ srk] := SkThy9.process_size hmr erefl; have [mr0 _] := full_trim hs s0 srk fb.
move: ec; rewrite /round_call; case: hm => -> ec.
  have := @C44_exact_rank R qr svd to_normal tt_random stream offset right_seed_of lstsq qr_econ (proj1 qrP) svdP (ent l) X s (RTuple mr) mr _ (2, 1)%N x pX s1 hmr mr0 e0 ex.
  by rewrite ec; apply=> k hk; apply: leq_trans (full_unfolding _ _ _) (fb k hk).
by have := @C44_pairwise_full R qr svd to_normal tt_random stream offset right_seed_of lstsq qr_econ (proj1 qrP) svdP (ent l) X s (RTuple mr) mr _ (2, 1)%N x pX s1 hmr fb e0 ex; rewrite ec.
Qed.

(* ... so it is GMRES: orthonormal basis, true residuals reported, and the smallest residual over
   x0 + span(r, op r, ..., op^(k-1) r) *)
Theorem C45_full_exact o : run = Ok o -> (m = RExact \/ m = RPairwise) -> tol = 0 -> (sym -> self_adjoint s op) ->
  let k := run_iters o in
  [/\ forall p q, (p < k)%N -> (q < k)%N -> ipr s (run_nu o p) (run_nu o q) = (p == q)%:R,
      reported s b o k (norm2 s (fun i => bp i - op (run_inp o (2 * k + 1)) i)) &
      forall z : nat -> R, norm2 s (fun i => bp i - op (run_inp o (2 * k + 1)) i) <=
        norm2 s (fun i => bp i - op (combine (x0_of x0) k z (fun j => iter j op (fun i => bp i - op (x0_of x0) i))) i)].
Proof.
move=> e hm t0 sa k; apply: (C45_exact qrP svdP solP nplP lstsqP qr_econP rndP valid e) => //.
exact: C45_full_no_error.
Qed.

Lemma delta_ge0 o mr beta rs : run_post qr svd to_normal tt_random stream offset right_seed_of lstsq qr_econ ent s op bp (x0_of x0) sym tol bn maxiter mr m
   (odflt max_rank final_rank) (final_method m mf) rkf o (run_iters o) beta rs -> 0 <= tol -> forall j, 0 <= nth 0 (g_delta o) j.
Proof.
move=> h t0 j; rewrite (rp_delta h); case: (ltnP j (run_iters o)) => hj; last by rewrite nth_default ?size_map ?size_iota.
rewrite (nth_map 0%N) ?size_iota // nth_iota // add0n.
have be : 0 <= beta by rewrite (arn_beta (rp_arn h)) sqrtr_ge0.
have re : 0 <= rs j.
  case: j hj => [|j] hj; first by rewrite (rp_rs0 h).
  have [y [-> _]] := rp_rs h (ltnW hj : (0 < j.+1 <= run_iters o)%N); apply: sumr_ge0 => p _; exact: sqr_ge0.
by rewrite divr_ge0 // divr_ge0.
Qed.

(* With "exact" rounding, a full budget and any tolerance: the errors of the two roundings of
   iteration j are at most delta_j sqrt(sum_k (full_rank k - 1)) times the norm of what is rounded
   (delta_j is in the history); the initial residual is rounded without error. *)
Theorem C45_rounding_errors o : run = Ok o -> m = RExact -> 0 <= tol ->
  let F := Num.sqrt (\sum_(0 <= k < (size s).-1) (full_rank s k).-1)%:R : R in
  exact_call s (run_inp o) (run_out o) 0 /\
  forall j, (j < run_iters o)%N -> forall l, l = (2 * j + 1)%N \/ l = (2 * j + 2)%N ->
    call_err s (run_inp o) (run_out o) l <= nth 0 (g_delta o) j * F * norm2 s (run_inp o l).
Proof.
move=> e hm t0 F; have [mr [beta [rs [h hmr fb]]]] := run_mr e.
have [_ srk] := SkThy9.process_size hmr erefl; have [mr0 _] := full_trim hs s0 srk fb.
split.
  have h0 : (0 < 2 * run_iters o + 1)%N by rewrite addn1.
  have := rp_call h h0; have [pX pY] := rp_trp h h0.
  have [wX sX] := train_sum_wf (pos_sum_train pX); have [x ex _] := to_numpyE wX.
  move: (wX) pX pY ex sX; rewrite /exact_call /run_inp /run_out -/(dT R).
  move: (nth _ _ _).1 (nth _ _ _).2 => X Y {}wX pX pY ex sX ec.
  have wsY : wf Y /\ tshape Y = s by case/pos_trainP: pY => cs -> [w ec' _].
  have eY : to_numpy Y = Ok x.
    have := @C44_exact_rank R qr svd to_normal tt_random stream offset right_seed_of lstsq qr_econ (proj1 qrP) svdP (ent 0%N) X s (RTuple mr) mr None (2, 1)%N x pX s1 hmr mr0 (or_introl erefl) ex.
    move: ec; rewrite /round_call hm /eps_of eqxx => ->; apply=> k hk; apply: leq_trans (full_unfolding _ _ _) (fb k hk).
  exact: entries_eq wX wsY.1 sX wsY.2 ex eY.
move=> j hj l hl.
have hl' : (l < 2 * run_iters o + 1)%N by clear -hl hj; lia.
have := rp_call h hl'; have [pX pY] := rp_trp h hl'.
have -> : eps_of (g_delta o) l = Some (nth 0 (g_delta o) j).
  rewrite /eps_of; case: eqP => [l0|_]; first by clear -l0 hl; lia.
  by congr (Some (nth _ _ _)); clear -hl; lia.
have [wX sX] := train_sum_wf (pos_sum_train pX); have [x ex [_ _ gx]] := to_numpyE wX.
move: (wX) pX pY ex sX gx; rewrite /call_err /run_inp /run_out -/(dT R).
move: (nth _ _ _).1 (nth _ _ _).2 => X Y {}wX pX pY ex sX gx ec.
have [wY sY] : wf Y /\ tshape Y = s by case/pos_trainP: pY => cs -> [w ec' _].
have := @C44_exact_tolerance R qr svd to_normal tt_random stream offset right_seed_of lstsq qr_econ (proj1 qrP) svdP (ent l) X s (RTuple mr) mr
   _ (2, 1)%N x pX s1 hmr fb (delta_ge0 h t0 j) ex.
move: ec; rewrite /round_call hm => ->; rewrite /or_linalg => -[y ey [_ B]].
have [y' ey' [_ _ gy]] := to_numpyE wY; move: ey'; rewrite ey => -[ey']; rewrite -{y'}ey' in gy.
rewrite !norm2E; move: B.
rewrite [X in Num.sqrt X <= _](eq_sum_idx (g := fun i => (den X i - den Y i) ^+ 2)); last by move=> i hi; rewrite gx ?gy ?sX ?sY.
by rewrite [X in _ <= _ * Num.sqrt X](eq_sum_idx (g := fun i => den X i ^+ 2)) // => i hi; rewrite gx ?sX.
Qed.

(* ... hence a bound of the true residual by the reported one and the history *)
Theorem C45_accuracy o : run = Ok o -> m = RExact -> 0 <= tol -> let k := run_iters o in
  let F := Num.sqrt (\sum_(0 <= k < (size s).-1) (full_rank s k).-1)%:R : R in
  exists2 rho, 0 <= rho /\ reported s b o k rho &
  norm2 s (fun i => bp i - op (run_inp o (2 * k + 1)) i) <= Num.sqrt k.+1%:R * rho +
    F * \sum_(0 <= j < k) nth 0 (g_delta o) j * `|run_y o j| * (norm2 s (run_inp o (2 * j + 1)) + norm2 s (run_inp o (2 * j + 2))).
Proof.
move=> e hm t0 k F; have [rho rh B] := C45_residual_bound qrP svdP solP nplP lstsqP qr_econP rndP valid e; exists rho => //.
have [X0 E] := C45_rounding_errors e hm t0.
have E0 : call_err s (run_inp o) (run_out o) 0 = 0.
  rewrite /call_err norm2E (eq_sum_idx (g := fun=> 0)); last by move=> i hi; rewrite X0 // subrr expr0n.
  by rewrite sum_idxE big1_seq ?sqrtr0.
apply: le_trans B _; rewrite E0 addr0 ler_add2l big_distrr /= big_nat [X in _ <= X]big_nat.
apply: ler_sum => j /andP[_ hj].
have -> (d y u v : R) : F * (d * y * (u + v)) = y * (d * F * u + d * F * v) by rewrite -mulrDr !mulrA; congr (_ * _); rewrite [LHS]mulrC [F * d]mulrC mulrA.
by apply: ler_wpmul2l => //; apply: ler_add; apply: E => //; [left|right].
Qed.

(* The stopping rule can stop without any progress: started from 0 and without preconditioner, if
   ||b|| < tolerance and op b is orthogonal to b, every run stops after one iteration, whatever
   maxiter, and the residual of its result (before the final rounding) is at least that of the zero
   tensor. *)
Theorem C45_no_progress o : run = Ok o -> m = RExact -> x0 = None -> pre = None -> bn < tol ->
  ipr s (op (den (TT b))) (den (TT b)) = 0 ->
  run_iters o = 1%N /\ bn <= norm2 s (fun i => bp i - op (run_inp o (2 * run_iters o + 1)) i).
Proof.
move=> e hm ex ep bt orth; have e' := e; have valid' := valid; rewrite hm in e' valid'.
have k1 := C45_small_rhs_stops qrP svdP solP nplP lstsqP qr_econP rndP valid' e' ex ep bt; split=> //.
have t0 : 0 <= tol by apply: le_trans (ltW bt); exact: sqrtr_ge0.
have [X0 _] := C45_rounding_errors e hm t0.
have [beta [a [b0 _] _ rx _]] := C45_arnoldi qrP svdP solP nplP lstsqP qr_econP rndP valid e.
have [o1 o2] := opL' valid.
have op0 : eqf s (op (fun=> 0)) (fun=> 0).
  move=> i hi; have z : eqf s (fun i => -1 * (fun=> 0 : R) i + (fun=> 0 : R) i) (fun=> 0) by move=> j _; rewrite mulr0 addr0.
  by rewrite -(o1 _ _ z i hi) o2 // mulN1r addNr.
have xE : eqf s (run_inp o (2 * run_iters o + 1)) (fun i => (run_y o 0%N / beta) * den (TT b) i + 0).
  move=> i hi; rewrite rx // /combine k1 big_nat1 ex /= add0r addr0 -mulrA; congr (_ * _).
  rewrite (arn_nu0 a) // -(X0 i hi) (arn_inp0 a) // ex /= op0 // subr0 ep /= mulrC //.
have rE : eqf s (fun i => bp i - op (run_inp o (2 * run_iters o + 1)) i) (fun i => den (TT b) i - (run_y o 0%N / beta) * op (den (TT b)) i).
  by move=> i hi; rewrite (o1 _ _ xE i hi) o2 // op0 // addr0 ep.
rewrite !norm2E; apply: ler_wsqrtr.
set c := run_y o 0%N / beta in rE *.
rewrite [X in _ <= X](eq_sum_idx (g := fun i => den (TT b) i ^+ 2 + (c ^+ 2 * op (den (TT b)) i ^+ 2 + (- (c *+ 2)) * (op (den (TT b)) i * den (TT b) i)))); last first.
  move=> i hi; rewrite rE // sqrrB exprMn addrAC -addrA; congr (_ + _); congr (_ + _).
  by rewrite mulNr; congr (- _); rewrite mulrnAl; congr (_ *+ 2); rewrite mulrCA (mulrC (den _ _)).
rewrite !sum_idxD !sum_idxZ.
have -> : sum_idx s (fun i => op (den (TT b)) i * den (TT b) i) = 0 by exact: orth.
rewrite mulr0 addr0 ler_addl; apply: mulr_ge0; first exact: sqr_ge0.
by apply: sum_idx_ge0 => i; exact: sqr_ge0.
Qed.
End C45b.
Print Assumptions C45_exact_guess_fails.
Print Assumptions C45_small_rhs_stops.
Print Assumptions C45_full_no_error.
Print Assumptions C45_full_exact.
Print Assumptions C45_rounding_errors.
Print Assumptions C45_accuracy.
Print Assumptions C45_no_progress.
