(* Property C45 continued: when tt_sum_gmres (tt_gmres.py:308-432) fails. *)
From Coq Require Import String Ascii NArith.
From mathcomp Require Import all_ssreflect all_algebra.
From mathcomp Require Import zify.
From Verif Require Import Py Nd Utils Tensor TensorNum Sketch Mpo Gmres Spec LinSpec RecSpec RoundSpec SkSpec MpoSpec GmresSpec ArnSpec GmRunSpec.
From Verif Require Import NdThy ChainThy TensorThy TensorThy3 GmresThy1 RoundSumThy GmresThy2 GmresMath ArnThy ArnThy2 GmresThy3 GmresThy4 GmresThy5.
From Verif Require Import TensorThy2 SweepThy RoundThy RoundThy2 RankThy TrimThy SkThy14 NormThy Prop_RoundSum Prop_RoundSum2 Prop_Gmres Prop_Gmres2.
Set Implicit Arguments. Unset Strict Implicit. Unset Printing Implicit Defensive.
Import GRing.Theory Num.Theory Order.TTheory.
Local Open Scope ring_scope.

Section C45c.
Variable R : rcfType.
Notation arr := (nd R).
Notation tensor := (tensor R).
Variables (qr : arr -> res (arr * arr)) (svd : arr -> res (arr * arr * arr)).
Variable to_normal : N -> R.
Variable tt_random : seq nat -> seq nat -> N -> seq arr.
Variable stream : N -> nat -> R.
Variable offset : N -> nat -> N.
Variable right_seed_of : N -> nat -> N.
Variable lstsq : arr -> arr -> res arr.
Variable qr_econ : arr -> res (arr * arr).
Variables (solve_tri : arr -> arr -> res arr) (np_lstsq : arr -> arr -> res (arr * seq R)).
Variable ent : nat -> nat -> N.
Notation gmres := (tt_sum_gmres qr svd solve_tri to_normal tt_random stream offset right_seed_of lstsq qr_econ np_lstsq ent).
Notation round_call := (round_call qr svd to_normal tt_random stream offset right_seed_of lstsq qr_econ ent).
Hypotheses (qrP : qr_tri_contract qr) (svdP : svd_contract svd) (solP : solve_tri_contract solve_tri) (nplP : np_lstsq_contract np_lstsq).
Hypotheses (lstsqP : lstsq_contract lstsq) (qr_econP : qr_contract qr_econ) (rndP : tt_random_ok tt_random).

Variables (s rkf : seq nat) (fs : seq (ttmap R)) (pre : option (precond R)) (b : seq arr) (max_rank : ttrank) (final_rank : option ttrank)
  (x0 : option (seq arr)) (tol : R) (maxiter : nat) (sym : bool) (m mf : rounding).
Hypothesis valid : gmres_valid qr fs s b max_rank pre final_rank x0 m mf rkf.
Notation op := (op_act fs pre s).                 (* the operator *)
Notation bp := (pre_act pre s (den (TT b))).      (* the right hand side *)
Notation bn := (norm2 s (den (TT b))).            (* what the reported residuals are divided by *)
Notation run := (gmres (MapSum fs s s) b max_rank pre final_rank x0 tol maxiter sym m mf).

(* the initial residual and the Krylov vectors *)
Notation res0 := (fun i => bp i - op (x0_of x0) i).
Notation krylov := (fun p => iter p op res0).

Lemma run_failP e : run = Err e -> run_fail qr svd to_normal tt_random stream offset right_seed_of lstsq qr_econ ent s fs pre b max_rank x0 tol maxiter sym m e.
Proof. by move=> E; have := run_ok_fail to_normal stream offset right_seed_of ent qrP svdP solP nplP lstsqP qr_econP rndP tol maxiter sym valid; rewrite E. Qed.

(* With a positive tolerance and b <> 0 a run fails only if a LAPACK routine fails, or the rounded
   initial residual is zero, or the iteration breaks down: the last vector is zero, and the small
   matrix H is singular. *)
Theorem C45_failures e : run = Err e -> (0 < maxiter)%N -> 0 < tol -> bn != 0 ->
  e = LinAlgError \/
  (e = NonFinite /\ exists mr X r0, [/\ process_tt_rank max_rank s true = Ok mr, round_call 0 X (RTuple mr) None m = Ok r0,
      eqf s (den X) res0 & eqf s (den r0) (fun=> 0)]) \/
  (e = ValueError /\ exists k inp out beta nu H, [/\ arnoldi s op sym bp (x0_of x0) k inp out beta nu H, beta != 0, (0 < k <= maxiter)%N,
      eqf s (out (2 * k)%N) (fun=> 0) &
      exists2 z : nat -> R, exists2 q, (q < k)%N & z q != 0 & forall p, (p < k)%N -> \sum_(0 <= q < k) H p q * z q = 0]).
Proof.
move=> /run_failP[->|[[-> //]|[mr hmr [_ H]]]] M0 t0 bn0; first by left.
case: H => [[-> [X [r0 [_ _ hc hX h0]]]]|[beta b0 [->|[[-> [k [tr [ds [nu [H [at1 /andP[k0 kM] _ ns]]]]]]]|
  [-> [k [tr [ds [nu [H [at1 /andP[k0 kM] hk hz]]]]]]]]]]].
- by right; left; split=> //; exists mr, X, r0; split=> //; exact: nrm0_eqf.
- by left.
- by exfalso; move: ns; rewrite /stops /fdiv (negPf bn0) mul0r t0.
right; right; split=> //; exists k, (inpf tr), (outf tr), beta, nu, H; split; [exact: at_arn at1|by []|by rewrite k0| |].
  have kk : (k.-1 < k)%N by rewrite prednK.
  have := H_sub (at_arn at1) kk; rewrite prednK // hk => /esym; rewrite (_ : (2 * k.-1 + 2 = 2 * k)%N); first exact: nrm0_eqf.
  by clear -k0; lia.
by case: hz => z z0 hz; exists z => // p hp; apply: hz; exact: ltnW.
Qed.

(* ---- full budget ---- *)
Variable rk : seq nat.
Hypotheses (hrk : process_tt_rank max_rank s false = Ok rk) (full : full_budget s rk).
Hypothesis hm : m = RExact \/ m = RPairwise.

Let s1 : (1 < size s)%N. Proof. exact: gv_modes valid. Qed.
Let s0 : (0 < size s)%N. Proof. by clear -s1; lia. Qed.
Let hs : all (fun n => 0 < n)%N s. Proof. by have [_ _ h _] := gv_b valid. Qed.

Lemma full_mr mr : process_tt_rank max_rank s true = Ok mr -> process_tt_rank (RTuple mr) s false = Ok mr /\ full_budget s mr.
Proof.
move=> hmr; have [_ srk] := SkThy9.process_size hrk erefl; have [rk0 fb] := full_trim hs s0 srk full.
by have [e1 sm _ _] := process_trim hs hrk rk0 hmr; split; [exact: process_rtuple|rewrite e1].
Qed.

Lemma full_call mr l X Y eps : process_tt_rank max_rank s true = Ok mr -> pos_sum s X -> pos_train s Y ->
  round_call l X (RTuple mr) eps m = Ok Y -> eps = None \/ eps = Some 0 -> eqf s (den X) (den Y).
Proof.
move=> hmr pX pY ec e0; have [hmr' fb] := full_mr hmr.
have [wX sX] := train_sum_wf (pos_sum_train pX); have [x ex _] := to_numpyE wX.
have wsY : wf Y /\ tshape Y = s by case/pos_trainP: pY => cs -> [w ec' _].
suff eY : to_numpy Y = Ok x by apply: (entries_eq wX wsY.1 sX wsY.2 ex eY).
have [_ srk] := SkThy9.process_size hmr' erefl; have [mr0 _] := full_trim hs s0 srk fb.
move: ec; rewrite /Gmres.round_call; case: hm => -> ec.
  have := @C44_exact_rank R qr svd to_normal tt_random stream offset right_seed_of lstsq qr_econ (proj1 qrP) svdP (ent l) X s (RTuple mr) mr _ (2, 1)%N x pX s1 hmr' mr0 e0 ex.
  by rewrite ec; apply=> k hk; apply: leq_trans (full_unfolding _ _ _) (fb k hk).
by have := @C44_pairwise_full R qr svd to_normal tt_random stream offset right_seed_of lstsq qr_econ (proj1 qrP) svdP (ent l) X s (RTuple mr) mr _ (2, 1)%N x pX s1 hmr' fb e0 ex; rewrite ec.
Qed.

Lemma attempt_exact mr beta k tr ds nu H : process_tt_rank max_rank s true = Ok mr -> tol = 0 -> (sym -> self_adjoint s op) ->
  attempt qr svd to_normal tt_random stream offset right_seed_of lstsq qr_econ ent s mr fs pre tol sym m beta bp (x0_of x0) k tr ds nu H ->
  all_exact s op sym k (inpf tr) (outf tr).
Proof.
move=> hmr t0 sa at1; split=> // l hl; have hl' : (l < 2 * k + 1)%N by rewrite addn1 ltnS.
have [pX pY] := at_trp at1 hl'; apply: (full_call hmr pX pY (at_call at1 hl')).
have [rs ->] := at_ds at1; rewrite /eps_of; case: eqP => [_|_]; [by left|right]; congr Some.
case: (ltnP l.-1./2 k) => hh; last by rewrite nth_default ?size_map ?size_iota.
by rewrite (nth_map 0%N) ?size_iota // t0 mul0r.
Qed.

(* With "exact" or "pairwise" rounding, a full budget, tolerance 0 and an injective operator: if no
   LAPACK routine fails, the run returns a result exactly if none of the Krylov spaces of dimension
   0, 1, ..., maxiter - 1 contains the solution; it then makes maxiter iterations.  Otherwise it
   divides by zero. *)
Theorem C45_full_outcome : tol = 0 -> (0 < maxiter)%N -> (sym -> self_adjoint s op) ->
  (forall x, eqf s (op x) (fun=> 0) -> eqf s x (fun=> 0)) ->
  let solved := exists2 k, (k < maxiter)%N & exists z, eqf s (op (combine (x0_of x0) k z krylov)) bp in
  match run with
  | Ok o => ~ solved /\ run_iters o = maxiter
  | Err e => e = LinAlgError \/ (e = NonFinite /\ solved)
  end.
Proof.
move=> t0 M0 sa inj solved; have opl := opL' valid.
case E: run => [o|e]; last first.
  have [->|[[e0]|[mr hmr [_ H]]]] := run_failP E; [by left|by move: M0; rewrite e0|].
  case: H => [[-> [X [r0 [pX pr0 hc hX h0]]]]|[beta b0 [->|[[-> [k [tr [ds [nu [H [at1 /andP[k0 kM] [y hy] _]]]]]]]|
    [-> [k [tr [ds [nu [H [at1 /andP[k0 kM] hk [z z0 hz]]]]]]]]]]]].
  - right; split=> //; exists 0%N => //; exists (fun=> 0).
    have h1 := full_call hmr pX pr0 hc (or_introl erefl); have h2 := nrm0_eqf h0.
    have c0 : eqf s (combine (x0_of x0) 0 (fun=> 0) krylov) (x0_of x0) by move=> i hi; rewrite /combine big_geq // addr0.
    move=> i hi; rewrite (opl.1 _ _ c0 i hi); apply/esym/eqP; rewrite -subr_eq0.
    by rewrite -(hX i hi) h1 // h2.
  - by left.
  - right; split=> //; exists k => //; have ex := attempt_exact hmr t0 sa at1.
    have hs0 : small_sq H beta k y = 0 by case: hy.
    have := exact_solution opl (at_arn at1) ex (at_nb at1) hs0 => hsol.
    have [z hz] := combine_inK opl (at_arn at1) y ex (at_nb at1); exists z => i hi.
    by rewrite -(opl.1 _ _ hz i hi) hsol.
  - have ex := attempt_exact hmr t0 sa at1; case: z0 => q hq; case/eqP.
    exact: (exact_full opl (at_arn at1) inj ex (at_nb at1) hz hq).
have [mr [beta [rs [h _ _]]]] := run_mr qrP svdP solP nplP lstsqP qr_econP rndP valid hrk full E.
have ge0 l : (0 < l <= run_iters o)%N -> 0 <= rs l.
  by move=> /(rp_rs h)[y [-> _]]; apply: sumr_ge0 => p _; exact: sqr_ge0.
have ex : all_exact s op sym (run_iters o) (run_inp o) (run_out o).
  split=> // l hl; exact: (C45_full_no_error qrP svdP solP nplP lstsqP qr_econP rndP valid hrk full E hm t0).
have [k0 kM] := andP (rp_k h).
have kE : run_iters o = maxiter.
  case: (rp_end h) => //; rewrite /stops /fdiv t0; case: eqP => // _; rewrite ltNge divr_ge0 //; last exact: sqrtr_ge0.
  by apply: ge0; rewrite k0 leqnn.
split=> // -[k]; rewrite -kE => hk [z hz].
have a' := arn_prefix (rp_arn h) (ltnW hk).
have ex' : all_exact s op sym k (run_inp o) (run_out o) by split=> // l hl; apply: ex.1; clear -hl hk; lia.
have nb' : no_breakdown k beta (run_H o) by split; [exact: (rp_nb h).1|move=> j hj; apply: (rp_nb h).2; clear -hj hk; lia].
case: (posnP k) => [ek|k1].
  have := exact_residual opl a' (fun=> 0) ex' nb'; rewrite ek.
  move=> e; have /eqP := (rp_nb h).1; apply; have := e.
  have -> : small_sq (run_H o) beta 0 (fun=> 0) = beta ^+ 2 by rewrite /small_sq big_nat1 big_geq // eqxx sub0r sqrrN.
  rewrite sqrtr_sqr (_ : norm2 _ _ = 0); last first.
    rewrite (@eqf_norm _ _ _ (fun=> 0)) ?nrm0 // => i hi.
    have c0 : eqf s (combine (x0_of x0) 0 (fun=> 0) (run_nu o)) (combine (x0_of x0) k z krylov) by move=> j hj; rewrite /combine ek !big_geq.
    by rewrite (opl.1 _ _ c0 i hi) hz // subrr.
  by move=> /esym/eqP; rewrite normr_eq0 => /eqP.
have k1' : (0 < k <= run_iters o)%N by rewrite k1 ltnW.
have [y hy] := rp_rs h k1'.
exact: (exact_no_solution opl a' ex' nb' hy (rp_rsn h hk) (leqnn k) hz).
Qed.
End C45c.
Print Assumptions C45_failures.
Print Assumptions C45_full_outcome.
