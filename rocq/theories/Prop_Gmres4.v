(* Property C45 continued: with sufficient ranks, TT-GMRES solves every invertible system. *)
From Coq Require Import String Ascii NArith.
From mathcomp Require Import all_ssreflect all_algebra.
From mathcomp Require Import zify.
From Verif Require Import Py Nd Utils Tensor TensorNum Sketch Mpo Gmres Spec LinSpec RecSpec RoundSpec SkSpec MpoSpec GmresSpec ArnSpec GmRunSpec.
From Verif Require Import NdThy ChainThy TensorThy TensorThy3 GmresThy1 RoundSumThy GmresThy2 GmresMath ArnThy ArnThy2 GmresThy3 GmresThy4 GmresThy5.
From Verif Require Import TensorThy2 SweepThy RoundThy RoundThy2 RankThy TrimThy SkThy14 NormThy Prop_RoundSum Prop_RoundSum2 Prop_Gmres Prop_Gmres2 Prop_Gmres3.
Set Implicit Arguments. Unset Strict Implicit. Unset Printing Implicit Defensive.
Import GRing.Theory Num.Theory Order.TTheory.
Local Open Scope ring_scope.

(* ---- Krylov spaces of an injective operator contain the solution ---- *)
Section Krylov.
Variable R : rcfType.
Variable s : seq nat.
Notation fn := (seq nat -> R).
Variable op : fn -> fn.
Hypothesis opl : linear_op s op.
Hypothesis inj : forall x, eqf s (op x) (fun=> 0) -> eqf s x (fun=> 0).
Variable r : fn.
Notation K := (fun p => iter p op r).

Lemma op0 : eqf s (op (fun=> 0)) (fun=> 0).
Proof.
move=> i hi; rewrite (opl.1 _ (fun i => -1 * (fun=> 0 : R) i + (fun=> 0 : R) i)) //; last by move=> j _; rewrite mulr0 addr0.
by rewrite opl.2 // mulN1r addNr.
Qed.

Lemma op_comb k z (V : nat -> fn) : eqf s (op (fun i => \sum_(0 <= j < k) z j * V j i)) (fun i => \sum_(0 <= j < k) z j * op (V j) i).
Proof.
elim: k => [|k IH] i hi.
  rewrite big_geq // (opl.1 _ (fun=> 0)) ?op0 // => j _; by rewrite big_geq.
rewrite big_nat_recr //= addrC -IH //.
rewrite (opl.1 _ (fun i => z k * V k i + (\sum_(0 <= j < k) z j * V j i))) //; first by rewrite opl.2 // addrC.
by move=> j hj; rewrite big_nat_recr //= addrC.
Qed.

Lemma inj_iter n x : eqf s (iter n op x) (fun=> 0) -> eqf s x (fun=> 0).
Proof. by elim: n x => //= n IH x h; apply: IH; apply: inj. Qed.

Lemma iter_comb n k z : eqf s (iter n op (fun i => \sum_(0 <= j < k) z j * K j i)) (fun i => \sum_(0 <= j < k) z j * K (n + j)%N i).
Proof.
elim: n => [|n IH] i hi //=; rewrite (opl.1 _ _ IH i hi) op_comb //.
Qed.

(* prods s + 1 vectors are linearly dependent *)
Lemma dependent : exists2 c : nat -> R, exists2 q, (q <= prods s)%N & c q != 0 & eqf s (fun i => \sum_(0 <= j < (prods s).+1) c j * K j i) (fun=> 0).
Proof.
pose N := prods s; pose M : 'M[R]_(N.+1, N) := \matrix_(j, p) K j (unravel s p).
have : kermx M != 0.
  by rewrite kermx_eq0 /row_free neq_ltn ltnS rank_leq_col.
case/rowV0Pn=> v /sub_kermxP hv v0.
pose c j := v 0 (inord j); exists c.
  have [q hq] : exists q, v 0 q != 0.
    apply/existsP; apply: contraNT v0 => /existsPn h; apply/eqP/rowP => q; rewrite mxE; apply/eqP; have := h q; by rewrite negbK.
  by exists q; rewrite /c ?inord_val // -ltnS.
move=> i hi; have hp : (ravel s i < N)%N by exact: ravel_lt.
have := congr1 (fun A : 'M_(1, N) => A 0 (Ordinal hp)) hv; rewrite !mxE => e0; rewrite -[RHS]e0.
rewrite big_mkord; apply: eq_bigr => j _; rewrite /c inord_val mxE /=; by rewrite unravelK.
Qed.

(* ... so the solution of op q = r is a combination of the first prods s of them *)
Lemma krylov_solves : exists2 k, (k <= prods s)%N & exists z : nat -> R, eqf s (op (fun i => \sum_(0 <= j < k) z j * K j i)) r.
Proof.
have [c [q hq cq] hc] := dependent.
have [j0 /andP[hj0 cj0] jmin] := @ex_minnP (fun j => (j <= prods s)%N && (c j != 0)) (ex_intro _ q (introT andP (conj hq cq))).
have lo j : (j < j0)%N -> c j = 0.
  move=> hj; have [//|cj] := eqVneq (c j) 0; have := jmin j; rewrite cj (leq_trans (ltnW hj) hj0) => /(_ isT).
  by rewrite leqNgt hj.
pose k := (prods s - j0)%N.
have h1 : eqf s (fun i => \sum_(0 <= j < k.+1) c (j0 + j)%N * K j i) (fun=> 0).
  apply: (@inj_iter j0) => i hi; rewrite (iter_comb j0 k.+1 (fun j => c (j0 + j)%N)) // -[RHS](hc i hi).
  have hN : (prods s).+1 = (k.+1 + j0)%N by rewrite /k; clear -hj0; lia.
  rewrite [RHS](big_cat_nat _ (n := j0)) //=; last by rewrite hN leq_addl.
  rewrite [X in _ = X + _]big_nat_cond [X in _ = X + _]big1 ?add0r; last by move=> j /andP[/andP[_ hj] _]; rewrite lo ?mul0r.
  have -> : \sum_(j0 <= j < (prods s).+1) c j * K j i = \sum_(0 + j0 <= j < k.+1 + j0) c j * K j i by rewrite hN.
  rewrite [RHS]big_addn addnK; apply: eq_big_nat => j _; by rewrite addnC.
exists k; first by rewrite /k leq_subr.
exists (fun j => - (c j0)^-1 * c (j0 + j.+1)%N) => i hi.
have := h1 i hi; rewrite big_ltn // addn0 big_add1 /= => e0.
rewrite op_comb //; apply: (mulfI cj0); apply/eqP; rewrite -subr_eq0 -oppr_eq0 opprB; apply/eqP; rewrite -[RHS]e0; congr (_ + _).
rewrite mulr_sumr -sumrN; apply: eq_bigr => j _; by rewrite mulNr mulrA mulrN mulrA divff // mul1r mulNr opprK.
Qed.
End Krylov.

Section C45d.
Variable R : rcfType.
Notation arr := (nd R).
Notation tensor := (tensor R).
Variables (qr : arr -> res (arr * arr)) (svd : arr -> res (arr * arr * arr)).
Variable to_normal : N -> R.
Variable tt_random : seq nat -> seq nat -> N -> seq arr.
Variable stream : N -> nat -> R.
Variable offset : N -> nat -> N.
Variable right_seed_of : N -> nat -> N.
Variable lstsq : arr -> arr -> res arr.
Variable qr_econ : arr -> res (arr * arr).
Variables (solve_tri : arr -> arr -> res arr) (np_lstsq : arr -> arr -> res (arr * seq R)).
Variable ent : nat -> nat -> N.
Notation gmres := (tt_sum_gmres qr svd solve_tri to_normal tt_random stream offset right_seed_of lstsq qr_econ np_lstsq ent).
Hypotheses (qrP : qr_tri_contract qr) (svdP : svd_contract svd) (solP : solve_tri_contract solve_tri) (nplP : np_lstsq_contract np_lstsq).
Hypotheses (lstsqP : lstsq_contract lstsq) (qr_econP : qr_contract qr_econ) (rndP : tt_random_ok tt_random).

Variables (s rkf : seq nat) (fs : seq (ttmap R)) (pre : option (precond R)) (b : seq arr) (max_rank : ttrank) (final_rank : option ttrank)
  (x0 : option (seq arr)) (tol : R) (sym : bool) (m mf : rounding).
Hypothesis valid : gmres_valid qr fs s b max_rank pre final_rank x0 m mf rkf.
Notation op := (op_act fs pre s).                 (* the operator *)
Notation bp := (pre_act pre s (den (TT b))).      (* the right hand side *)
Notation run M := (gmres (MapSum fs s s) b max_rank pre final_rank x0 tol M sym m mf).
Notation res0 := (fun i => bp i - op (x0_of x0) i).
Notation krylov := (fun p => iter p op res0).

Let s1 : (1 < size s)%N. Proof. exact: gv_modes valid. Qed.
Let s0 : (0 < size s)%N. Proof. by clear -s1; lia. Qed.
Let hs : all (fun n => 0 < n)%N s. Proof. by have [_ _ h _] := gv_b valid. Qed.

(* If the final rounding (final_round_rank, rounding_method_final; tolerance None) has a full budget
   and is "exact" or "pairwise", the tensor returned is the solution of the last small least-squares
   problem, with no error: the bounds and optimality of C45_accuracy, C45_full_exact, ... hold for
   the returned tensor. *)
Theorem C45_final_exact M o : run M = Ok o -> full_budget s rkf -> (final_method m mf = RExact \/ final_method m mf = RPairwise) ->
  eqf s (run_inp o (2 * run_iters o + 1)) (den (g_x o)).
Proof.
move=> e fb hf; have := run_ok to_normal stream offset right_seed_of ent qrP svdP solP nplP lstsqP qr_econP rndP tol M sym valid.
rewrite e => -[mr [k [beta [rs [hmr h]]]]]; rewrite (rp_iters h).
have pX := rp_xpos h; have ec := rp_final h; have eY := rp_x h; have [hrkf prkf] := gv_rankf valid.
have wi := rp_within h.
have [wX sX] := train_sum_wf (pos_sum_train pX); have [x ex _] := to_numpyE wX.
move: wX pX ex sX ec; rewrite /run_inp -/(dT R).
move: (nth _ _ _).1 => X wX pX ex sX ec.
have wsY : wf (g_x o) /\ tshape (g_x o) = s by case: wi => cs -> [w e' _ _].
suff : to_numpy (g_x o) = Ok x by apply: (entries_eq wX wsY.1 sX wsY.2 ex).
move: ec; rewrite /Gmres.round_call; case: hf => -> ec.
  have := @C44_exact_rank R qr svd to_normal tt_random stream offset right_seed_of lstsq qr_econ (proj1 qrP) svdP (ent (2 * M + 1)%N) X s (odflt max_rank final_rank) rkf None (2, 1)%N x pX s1 hrkf prkf (or_introl erefl) ex.
  by rewrite ec; apply=> j hj; apply: leq_trans (full_unfolding _ _ _) (fb j hj).
by have := @C44_pairwise_full R qr svd to_normal tt_random stream offset right_seed_of lstsq qr_econ (proj1 qrP) svdP (ent (2 * M + 1)%N) X s (odflt max_rank final_rank) rkf None (2, 1)%N x pX s1 hrkf fb (or_introl erefl) ex; rewrite ec.
Qed.

Variable rk : seq nat.
Hypotheses (hrk : process_tt_rank max_rank s false = Ok rk) (full : full_budget s rk).
Hypothesis hm : m = RExact \/ m = RPairwise.

(* TT-GMRES terminates: with "exact" or "pairwise" rounding, full budgets, tolerance 0 and an injective
   operator, if no LAPACK routine fails and x0 is not already the solution, there is a number m of
   iterations, at most the number of entries of the tensor, such that the run with maxiter = m returns
   the exact solution of the system; with fewer iterations a run returns an approximation, and with
   more it fails with a division by zero. *)
Theorem C45_terminates : tol = 0 -> (sym -> self_adjoint s op) ->
  (forall x, eqf s (op x) (fun=> 0) -> eqf s x (fun=> 0)) ->
  full_budget s rkf -> (final_method m mf = RExact \/ final_method m mf = RPairwise) ->
  (forall M, run M <> Err LinAlgError) -> ~ eqf s (op (x0_of x0)) bp ->
  exists2 n, (0 < n <= prods s)%N &
    [/\ exists o, [/\ run n = Ok o, run_iters o = n & eqf s (op (den (g_x o))) bp],
        forall M, (0 < M <= n)%N -> exists o, run M = Ok o &
        forall M, (n < M)%N -> run M = Err NonFinite].
Proof.
move=> t0 sa inj fbf hf nolin nx0; have opl := opL' valid.
pose solved k := exists z, eqf s (op (combine (x0_of x0) k z krylov)) bp.
have out M (M0 : (0 < M)%N) := C45_full_outcome to_normal stream offset right_seed_of ent qrP svdP solP nplP lstsqP qr_econP rndP valid hrk full hm t0 M0 sa inj.
have opD x y : eqf s (op (fun i => x i + y i)) (fun i => op x i + op y i).
  move=> i hi; rewrite (opl.1 _ (fun i => 1 * x i + y i)) //; last by move=> j _; rewrite mul1r.
  by rewrite opl.2 // mul1r.
have [kk hkk [z hz]] := krylov_solves opl inj res0.
have sol : solved kk.
  exists z => i hi; have e : eqf s (combine (x0_of x0) kk z krylov) (fun i => x0_of x0 i + (\sum_(0 <= j < kk) z j * krylov j i)) by [].
  by rewrite (opl.1 _ _ e i hi) opD // hz // addrC subrK.
have okS M o : (0 < M)%N -> run M = Ok o -> forall k, (k < M)%N -> ~ solved k.
  by move=> M0 e k hk sk; have := out M M0; rewrite e => -[n1 _]; apply: n1; exists k.
have errS M : (0 < M)%N -> (forall o, run M <> Ok o) -> run M = Err NonFinite /\ exists2 k, (k < M)%N & solved k.
  move=> M0 no; have := out M M0; case E: (run M) => [o|e]; first by case: (no o).
  by move=> [e1|[-> h]] //; case: (nolin M); rewrite E e1.
pose ok M := (0 < M)%N && (if run M is Ok _ then true else false).
have okP M : reflect ((0 < M)%N /\ exists o, run M = Ok o) (ok M).
  apply: (iffP idP); rewrite /ok; first by case/andP=> ->; case: (run M) => // o _; split=> //; exists o.
  by case=> -> [o ->].
have ok1 : ok 1%N.
  apply/okP; split=> //; case E: (run 1%N) => [o|e]; first by exists o.
  have [_ [[|//] _ [y hy]]] := errS 1%N isT ltac:(by move=> ?; rewrite E); case: nx0 => i hi; rewrite -hy //.
  by apply: opl.1 => // j _; rewrite /combine big_geq // addr0.
have bnd M : ok M -> (M <= prods s)%N.
  by case/okP=> M0 [o e]; rewrite leqNgt; apply/negP => h; apply: (okS _ _ M0 e kk) sol; apply: leq_ltn_trans hkk h.
have [n okn nmax] := ex_maxnP (ex_intro _ 1%N ok1) bnd.
have [n0 [o e]] := okP _ okn; exists n; first by rewrite n0 bnd.
have nS := okS _ _ n0 e.
split.
- exists o; have := out n n0; rewrite e => -[_ k2]; split=> //.
  have h0 := @C45_full_exact _ _ _ _ _ _ _ _ _ _ _ _ ent qrP svdP solP nplP lstsqP qr_econP rndP _ _ _ _ _ _ _ _ _ _ _ _ _ _ valid hrk full o e hm t0 sa.
  have hx := C45_final_exact e fbf hf; rewrite k2 in h0 hx; move: h0 => [_ _ opt].
  have [_ [k hk sk]] : run n.+1 = Err NonFinite /\ exists2 k, (k < n.+1)%N & solved k.
    apply: errS => // o' e'; have := nmax n.+1; rewrite ltnn => h; suff: false by []; apply: h; apply/okP; split=> //; by exists o'.
  have ek : k = n by apply/eqP; rewrite eqn_leq -ltnS hk leqNgt; apply/negP => /nS; apply.
  case: sk => y; rewrite ek => hy; have := opt y.
  rewrite [X in _ <= X](@eqf_norm _ _ _ (fun=> 0)) ?nrm0; last by move=> i hi; rewrite hy // subrr.
  move=> le0; have /nrm0_eqf h0 : norm2 s (fun i => bp i - op (run_inp o (2 * n + 1)) i) = 0 by apply: le_anti; rewrite le0 sqrtr_ge0.
  by move=> i hi; rewrite -(opl.1 _ _ hx i hi); apply/esym/eqP; rewrite -subr_eq0 h0.
- move=> M /andP[M0 Mn]; case E: (run M) => [o'|e']; first by exists o'.
  have [_ [k hk sk]] := errS M M0 ltac:(by move=> ?; rewrite E); by case: (nS k _ sk); exact: leq_trans hk Mn.
move=> M hM; have M0 : (0 < M)%N by apply: leq_trans hM.
apply: (proj1 (errS M M0 _)) => o' e'; have := nmax M; rewrite leqNgt hM => h; suff: false by []; apply: h; apply/okP; split=> //; by exists o'.
Qed.
End C45d.
Print Assumptions C45_final_exact.
Print Assumptions C45_terminates.
