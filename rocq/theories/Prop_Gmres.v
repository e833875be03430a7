(* Property C45: tt_sum_gmres (tt_gmres.py:308-432).  ArnSpec.v: the Arnoldi process with rounding
   errors, norms and the Krylov optimality statement.  GmRunSpec.v: [gmres_valid], the valid
   arguments, and run_iters, run_inp, run_out, run_nu, run_H, run_y, the parts of the result
   ([run_inp o l], [run_out o l]: the tensor given to and returned by the l-th call of round_tt_sum).
   [op_act fs pre s]: the (preconditioned) operator; [pre_act pre s]: the preconditioner. *)
From Coq Require Import String Ascii NArith.
From mathcomp Require Import all_ssreflect all_algebra.
From mathcomp Require Import zify.
From Verif Require Import Py Nd Utils Tensor TensorNum Sketch Mpo Gmres Spec LinSpec RecSpec RoundSpec SkSpec MpoSpec GmresSpec ArnSpec GmRunSpec.
From Verif Require Import NdThy ChainThy GmresThy1 RoundSumThy GmresThy2 GmresMath ArnThy GmresThy3 GmresThy4 GmresThy5.
Set Implicit Arguments. Unset Strict Implicit. Unset Printing Implicit Defensive.
Import GRing.Theory Num.Theory Order.POrderTheory.
Local Open Scope ring_scope.

Section C45.
Variable R : rcfType.
Notation arr := (nd R).
Notation tensor := (tensor R).
Variables (qr : arr -> res (arr * arr)) (svd : arr -> res (arr * arr * arr)).
Variable to_normal : N -> R.
Variable tt_random : seq nat -> seq nat -> N -> seq arr.
Variable stream : N -> nat -> R.
Variable offset : N -> nat -> N.
Variable right_seed_of : N -> nat -> N.
Variable lstsq : arr -> arr -> res arr.
Variable qr_econ : arr -> res (arr * arr).
Variables (solve_tri : arr -> arr -> res arr) (np_lstsq : arr -> arr -> res (arr * seq R)).
Variable ent : nat -> nat -> N.
Notation gmres := (tt_sum_gmres qr svd solve_tri to_normal tt_random stream offset right_seed_of lstsq qr_econ np_lstsq ent).

(* arguments whose shapes do not fit are rejected *)
Theorem C45_shape_checks A b max_rank pre final_rank x0 tol maxiter sym m mf :
  (m_out A <> tshape (TT b) \/ m_out A <> m_in A \/ (exists2 cs, x0 = Some cs & tshape (TT cs) <> m_in A)) ->
  gmres A b max_rank pre final_rank x0 tol maxiter sym m mf = Err ValueError.
Proof.
rewrite /tt_sum_gmres; case: eqP => //= e1; case: ifP => // e2; case: eqP => //= e3 [//|[//|[cs ex /eqP h]]].
by move: e2; rewrite ex h.
Qed.

Hypotheses (qrP : qr_tri_contract qr) (svdP : svd_contract svd) (solP : solve_tri_contract solve_tri) (nplP : np_lstsq_contract np_lstsq).
Hypotheses (lstsqP : lstsq_contract lstsq) (qr_econP : qr_contract qr_econ) (rndP : tt_random_ok tt_random).

Variables (s rkf : seq nat) (fs : seq (ttmap R)) (pre : option (precond R)) (b : seq arr) (max_rank : ttrank) (final_rank : option ttrank)
  (x0 : option (seq arr)) (tol : R) (maxiter : nat) (sym : bool) (m mf : rounding).
Hypothesis valid : gmres_valid qr fs s b max_rank pre final_rank x0 m mf rkf.
Notation op := (op_act fs pre s).                 (* the operator *)
Notation bp := (pre_act pre s (den (TT b))).      (* the right hand side *)
Notation bn := (norm2 s (den (TT b))).            (* what the reported residuals are divided by *)
Notation run := (gmres (MapSum fs s s) b max_rank pre final_rank x0 tol maxiter sym m mf).

Let postP o : run = Ok o -> exists mr beta rs, run_post qr svd to_normal tt_random stream offset right_seed_of lstsq qr_econ ent s op bp (x0_of x0) sym tol bn maxiter mr m
   (odflt max_rank final_rank) (final_method m mf) rkf o (run_iters o) beta rs.
Proof.
move=> e; have := run_ok to_normal stream offset right_seed_of ent qrP svdP solP nplP lstsqP qr_econP rndP tol maxiter sym valid.
by rewrite e => -[mr [k [beta [rs [_ h]]]]]; exists mr, beta, rs; rewrite (rp_iters h).
Qed.

(* on valid input: between 1 and maxiter iterations, one history entry each; or an error.  With
   maxiter = 0 the code reads an unbound variable.  ValueError: the small least squares problem
   is rank deficient.  NonFinite: division by zero (zero initial residual, or continuing after
   the Krylov space is exhausted). *)
Theorem C45_outcome :
  match run with
  | Ok o => let k := run_iters o in
      [/\ (1 <= k <= maxiter)%N, size (g_residual_norm o) = k.+1,
          size (g_w_norm o) = k.+1 /\ size (g_rank o) = k.+1,
          size (g_delta o) = k /\ size (g_nu o) = k & size (g_trace o) = (2 * k + 2)%N]
  | Err e => if maxiter == 0%N then e = LinAlgError \/ e = UnboundLocalError
             else e = LinAlgError \/ e = ValueError \/ e = NonFinite
  end.
Proof.
have := run_ok to_normal stream offset right_seed_of ent qrP svdP solP nplP lstsqP qr_econP rndP tol maxiter sym valid.
case e: run => [o|er] //= _; have [mr [beta [rs h]]] := postP e.
split; [exact: (rp_k h)|by rewrite (rp_hres h) size_map size_iota| |by rewrite (rp_nu h).1|exact: (rp_tr h)].
by case: (rp_w h) (rp_rank h) => -> _ _ [].
Qed.

(* the result respects final_round_rank (default max_rank) *)
Theorem C45_result_rank o : run = Ok o -> within s rkf (g_x o).
Proof. by case/postP=> mr [beta [rs h]]; exact: rp_within h. Qed.

(* every returned run is an inexact Arnoldi process, started from the rounded initial residual,
   which was not zero; no later basis vector is zero; the coefficients y solve the small least
   squares problem; the solution is x0 + sum y_j nu_j, rounded *)
Theorem C45_arnoldi o : run = Ok o -> exists beta,
  [/\ arnoldi s op sym bp (x0_of x0) (run_iters o) (run_inp o) (run_out o) beta (run_nu o) (run_H o),
      beta != 0 /\ (forall j, (j.+1 < run_iters o)%N -> run_H o j.+1 j != 0),
      exists r, is_lsq (run_H o) beta (run_iters o) (run_y o) r,
      eqf s (run_inp o (2 * run_iters o + 1)) (combine (x0_of x0) (run_iters o) (run_y o) (run_nu o)) &
      run_out o (2 * run_iters o + 1) = den (g_x o)].
Proof.
case/postP=> mr [beta [rs h]]; exists beta; split; [exact: rp_arn h|exact: rp_nb h|by exists (rs (run_iters o)); exact: rp_lsq h|exact: rp_result h|].
by rewrite /run_out; have := rp_x h; rewrite /dT => ->.
Qed.

Lemma opL' : linear_op s op.
Proof. by apply: linear_onP; case: (valid) => _ [_ hf _] gp _ _ _ _ _ _; apply: op_act_lin hf gp. Qed.

Let lsq_ge0 H (beta : R) k y r : is_lsq H beta k y r -> 0 <= r.
Proof. by case=> -> _; apply: sumr_ge0 => p _; exact: sqr_ge0. Qed.

(* rho: the last reported residual times ||b|| *)
Definition reported (o : gmres_out R) (l : nat) (rho : R) : Prop := nth None (g_residual_norm o) l = fdiv rho bn.

Let rep_last o k beta rs mr : run_post qr svd to_normal tt_random stream offset right_seed_of lstsq qr_econ ent s op bp (x0_of x0) sym tol bn maxiter mr m
   (odflt max_rank final_rank) (final_method m mf) rkf o k beta rs -> reported o k (Num.sqrt (rs k)).
Proof.
move=> h; have /andP[k0 _] := rp_k h; rewrite /reported (rp_hres h) (nth_map 0%N) ?size_iota // nth_iota // add0n.
by rewrite (negPf (lt0n_neq0 k0)).
Qed.

(* whatever the rounding errors: the true residual of the solution before its final rounding is
   at most sqrt(k+1) times the reported one plus the weighted rounding errors *)
Theorem C45_residual_bound o : run = Ok o -> let k := run_iters o in exists2 rho, 0 <= rho /\ reported o k rho &
  norm2 s (fun i => bp i - op (run_inp o (2 * k + 1)) i) <=
    Num.sqrt k.+1%:R * rho + call_err s (run_inp o) (run_out o) 0 +
    \sum_(0 <= j < k) `|run_y o j| * (call_err s (run_inp o) (run_out o) (2 * j + 1) + call_err s (run_inp o) (run_out o) (2 * j + 2)).
Proof.
case/postP=> mr [beta [rs h]] k; exists (Num.sqrt (rs k)); first by split; [exact: sqrtr_ge0|exact: rep_last h].
rewrite (@eqf_norm _ _ _ (fun i => bp i - op (combine (x0_of x0) k (run_y o) (run_nu o)) i)); last first.
  by move=> i hi; rewrite (opL'.1 _ _ (rp_result h)).
by rewrite (proj1 (rp_lsq h)); apply: (combine_norm opL' (rp_arn h)).
Qed.

(* without rounding errors (and a self-adjoint operator if symmetric=True): the basis is
   orthonormal, the reported residual is the true one, and it is the smallest residual over
   x0 + span(r, op r, ..., op^(k-1) r), r = b - op x0 *)
Theorem C45_exact o : run = Ok o -> let k := run_iters o in
  (forall l, (l <= 2 * k)%N -> exact_call s (run_inp o) (run_out o) l) -> (sym -> self_adjoint s op) ->
  [/\ forall p q, (p < k)%N -> (q < k)%N -> ipr s (run_nu o p) (run_nu o q) = (p == q)%:R,
      reported o k (norm2 s (fun i => bp i - op (run_inp o (2 * k + 1)) i)) &
      forall z : nat -> R, norm2 s (fun i => bp i - op (run_inp o (2 * k + 1)) i) <=
        norm2 s (fun i => bp i - op (combine (x0_of x0) k z (fun j => iter j op (fun i => bp i - op (x0_of x0) i))) i)].
Proof.
case/postP=> mr [beta [rs h]] k ex sa.
have ae : all_exact s op sym k (run_inp o) (run_out o) by split.
have a := rp_arn h.
have e1 : norm2 s (fun i => bp i - op (run_inp o (2 * k + 1)) i) = norm2 s (fun i => bp i - op (combine (x0_of x0) k (run_y o) (run_nu o)) i).
  by apply: eqf_norm => i hi; rewrite (opL'.1 _ _ (rp_result h)).
have orth := ortho a (exact_ortho a ae) (leqnn k).
have [b0 hH] := rp_nb h.
split.
- move=> p q hp hq; have [<-|hpq] := eqVneq p q.
    rewrite -nrm_sq (nu_norm a) ?(ltnW hp) //; case: p hp => [|p] hp; first by rewrite b0 expr1n.
    by rewrite hH // expr1n.
  by move: hpq; rewrite neq_ltn => /orP[h'|h']; [rewrite ip_sym|]; apply: orth => //; exact: ltnW.
- rewrite e1 (exact_residual opL' a _ ae (rp_nb h)) -(proj1 (rp_lsq h)); exact: rep_last h.
- move=> z; rewrite e1; exact: (exact_optimal opL' a z ae (rp_nb h) (rp_lsq h)).
Qed.

(* the reported residuals never increase *)
Theorem C45_monotone o : run = Ok o -> bn != 0 -> exists r : nat -> R,
  (forall l, (l <= run_iters o)%N -> nth None (g_residual_norm o) l = Some (r l) /\ 0 <= r l) /\
  (forall l, (l < run_iters o)%N -> r l.+1 <= r l).
Proof.
case/postP=> mr [beta [rs h]] bn0.
pose q l := if l == 0%N then beta else Num.sqrt (rs l).
have be : 0 <= beta by rewrite (arn_beta (rp_arn h)) nrm_ge0.
have q0 l : 0 <= q l by rewrite /q; case: ifP => // _; exact: sqrtr_ge0.
have bn1 : 0 < bn by rewrite lt_def bn0 nrm_ge0.
have lsq_l l : (l <= run_iters o)%N -> exists y, is_lsq (run_H o) beta l y (q l ^+ 2).
  case: l => [|l] hl; last first.
    by have [y hy] := rp_rs h (hl : (0 < l.+1 <= _)%N); exists y; rewrite /q /= sqr_sqrtr //; exact: lsq_ge0 hy.
  exists (fun=> 0); rewrite /q /=; split=> [|z]; rewrite /small_sq big_nat1 big_geq // eqxx sub0r sqrrN //.
exists (fun l => q l / bn); split=> [l hl|l hl].
  rewrite (rp_hres h) (nth_map 0%N) ?size_iota // nth_iota // add0n -/(q l) /fdiv (negPf bn0).
  by split=> //; apply: divr_ge0 => //; exact: ltW.
rewrite ler_pmul2r ?invr_gt0 //; have [y hy] := lsq_l l (ltnW hl); have [y' hy'] := lsq_l l.+1 hl.
have /andP[_ le] : 0 <= q l.+1 ^+ 2 <= q l ^+ 2.
  by apply: (lsq_mono hy hy') => p hp; apply: (H_zero (rp_arn h)) => //; clear -hp hl; lia.
by rewrite -(ler_pexpn2r (n := 2)) ?nnegrE.
Qed.

(* when it stops: at the first iteration l with r_l^2 ||b|| < tolerance (r_l: the reported relative
   residual), or after maxiter iterations.  delta_l, the accuracy asked of the roundings of
   iteration l, is tolerance in the first one, then tolerance * beta / (r_l ||b||)^2 *)
Theorem C45_stop_rule o : run = Ok o -> bn != 0 -> let k := run_iters o in exists2 r : nat -> R,
  (forall l, (l <= k)%N -> nth None (g_residual_norm o) l = Some (r l)) &
  [/\ forall l, (0 < l < k)%N -> tol <= r l ^+ 2 * bn,
      k = maxiter \/ r k ^+ 2 * bn < tol,
      nth 0 (g_delta o) 0 = tol &
      forall l, (0 < l < k)%N -> nth 0 (g_delta o) l = tol * (r 0%N * bn) / (r l * bn) ^+ 2].
Proof.
case/postP=> mr [beta [rs h]] bn0 k; have hk := rp_k h; rewrite -/k in hk.
pose q l := if l == 0%N then beta else Num.sqrt (rs l); have [b0 _] := rp_nb h.
have rsq l : (0 < l <= k)%N -> (q l / bn * bn) ^+ 2 = rs l.
  move=> hl; have [y hy] := rp_rs h hl; rewrite divfK // /q ifF; last by clear -hl; lia.
  by rewrite sqr_sqrtr //; exact: lsq_ge0 hy.
have st l : (0 < l <= k)%N -> stops tol bn (rs l) = ((q l / bn) ^+ 2 * bn < tol).
  move=> hl; rewrite /stops /fdiv (negPf bn0) -(rsq l hl) exprMn [bn ^+ 2]expr2 -mulrA -[bn * bn / bn]mulrA.
  by rewrite divff // mulr1.
exists (fun l => q l / bn).
  move=> l hl; rewrite (rp_hres h) (nth_map 0%N) ?size_iota // nth_iota // add0n -/(q l) /fdiv (negPf bn0) //.
split.
- move=> l /andP[l0 hl]; have hl' : (0 < l <= k)%N by rewrite l0 ltnW.
  by have := rp_stop h (_ : (0 < l < k)%N); rewrite l0 hl st // -real_leNgt ?num_real // => /(_ isT).
- by case: (rp_end h) => [|hs]; [left|right]; rewrite // -st ?leqnn ?andbT //; case/andP: hk.
- rewrite (rp_delta h) (nth_map 0%N) ?size_iota; last by case/andP: hk.
  by rewrite nth_iota ?(rp_rs0 h) ?divff ?divr1 //; case/andP: hk.
- move=> l /andP[l0 hl]; rewrite (rp_delta h) (nth_map 0%N) ?size_iota // nth_iota // add0n rsq ?l0 1?ltnW //.
  rewrite [q 0%N]/q eqxx divfK //; have := rp_rsn h hl => hn.
  by rewrite invf_div mulrA.
Qed.
End C45.
Print Assumptions C45_shape_checks.
Print Assumptions C45_outcome.
Print Assumptions C45_result_rank.
Print Assumptions C45_arnoldi.
Print Assumptions C45_residual_bound.
Print Assumptions C45_exact.
Print Assumptions C45_monotone.
Print Assumptions C45_stop_rule.
