(* A run of tt_sum_gmres that returns a result: non-vacuity of the theorems of C45.  The operator
   exchanges the two entries of the second mode of a 2 x 2 tensor, b = e_0 (x) e_0. *)
From Coq Require Import String Ascii NArith.
From mathcomp Require Import all_ssreflect all_algebra.
From mathcomp Require Import zify.
From Verif Require Import Py Nd Utils Tensor TensorNum Sketch Mpo Gmres Spec LinSpec RecSpec RoundSpec SkSpec MpoSpec GmresSpec ArnSpec GmRunSpec NoLinSpec.
From Verif Require Import NdThy Ein MatThy SkThy2 PrecThy ChainThy GmresThy1 RoundSumThy GmresThy2 GmresMath ArnThy ArnThy2 GmresThy3 GmresThy4 GmresThy5.
From Verif Require Import LinExist NoLin Prop_Total Prop_RoundSum Prop_RoundSum2 Prop_Gmres Prop_Gmres2 Prop_Gmres3 Prop_Gmres4.
Set Implicit Arguments. Unset Strict Implicit. Unset Printing Implicit Defensive.
Import GRing.Theory Num.Theory Order.TTheory.
Local Open Scope ring_scope.

(* LinAlgError comes only from the routines for matrices, if all preconditioners are invertible *)
Section Total.
Variable R : rcfType.
Notation arr := (nd R).
Notation tensor := (tensor R).
Variables (qr : arr -> res (arr * arr)) (svd : arr -> res (arr * arr * arr)).
Variable to_normal : N -> R.
Variable tt_random : seq nat -> seq nat -> N -> seq arr.
Variable stream : N -> nat -> R.
Variable offset : N -> nat -> N.
Variable right_seed_of : N -> nat -> N.
Variable lstsq : arr -> arr -> res arr.
Variable qr_econ : arr -> res (arr * arr).
Variables (solve_tri : arr -> arr -> res arr) (np_lstsq : arr -> arr -> res (arr * seq R)).
Variable ent : nat -> nat -> N.
Hypotheses (qrP : qr_tri_contract qr) (solP : solve_tri_contract solve_tri).
Hypotheses (h1 : forall A, nolin (qr A)) (h2 : forall A, nolin (svd A)) (h3 : forall A B, nolin (lstsq A B))
  (h4 : forall A, nolin (qr_econ A)) (h5 : forall A b, nolin (np_lstsq A b)).

(* TTPrecond(A, s, mode) of an invertible matrix *)
Definition invertible_pre (p : precond R) : Prop :=
  exists n, [/\ is_mat (p_A p) n n, amat (p_A p) n n \in unitmx & precond_new qr (p_A p) (p_shape p) (p_mode p) = Ok p].
(* an MPO, a preconditioner with an invertible matrix, or a map of a user that never raises LinAlgError *)
Definition tame_map (f : ttmap R) : Prop :=
  match f with MapMpo _ => True | MapPre p => invertible_pre p | MapUser _ _ call => forall cs, nolin (call cs) end.

Lemma reshape_shape (C : arr) s D : reshape C s = Ok D -> nshape D = s.
Proof. by rewrite /reshape; case: ifP => // _ [<-]. Qed.

Lemma nl_bindE (S T : Type) (x : res S) (f : S -> res T) : nolin x -> (forall a, x = Ok a -> nolin (f a)) -> nolin (bind x f).
Proof. by case: x => [a|e] h H; [exact: H|move=> [he]; apply: h; rewrite he]. Qed.

(* the preconditioner, applied to anything *)
Lemma nl_backward p cs : invertible_pre p -> nolin (precond_backward solve_tri p cs).
Proof.
move=> [n [hA u new]]; have [[hQ hR] oQ eA hU _] := precond_fac qrP hA new.
have uQ : amat (p_Q p) n n \in unitmx by case/mulmx1_unit: oQ.
have uR : amat (p_R p) n n \in unitmx by move: u; rewrite eA unitmx_mul uQ.
rewrite /precond_backward; apply: nl_bind => [|C]; first by nl.
apply: nl_bindE => [|M EM]; first by nl.
apply: nl_bindE => [|B EB]; first by nl.
apply: nl_bind => [|sol]; last by nl.
rewrite /solve_triangular; case: ifP => // /and3P[_ _ /eqP hd].
have [k sM] : exists k, nshape M = [:: prods (take 1 (nshape M)); k].
  move: EM; rewrite /matricize; case: (transpose _ _) => //= A'; move/reshape_shape => sM.
  by eexists; rewrite sM /= muln1.
have sQ : nshape (tr (p_Q p)) = [:: n; n] by case: hQ => _ e; rewrite (nshape_tr e).
have hB : is_mat B n k.
  by move: EB; rewrite /matmul sQ sM; case: ifP => // _ [<-]; split; first exact: nwf_tab.
have := solP hR hB hU; rewrite -(upper_unit hU) uR => -[X -> _]; exact: nl_ok.
Qed.

Lemma nl_mapM_In (A B : Type) (P : A -> Prop) (f : A -> res B) l : (forall a, P a -> nolin (f a)) -> (forall a, List.In a l -> P a) -> nolin (mapM f l).
Proof.
move=> h; elim: l => [|a l IH] H //=.
apply: nl_bind => [|b]; first by apply: h; apply: H; left.
by apply: nl_bind => [|?]; [apply: IH => x hx; apply: H; right|exact: nl_ok].
Qed.

Variables (A : mapsum R) (pre : option (precond R)).
Hypothesis tA : forall f, List.In f (m_maps A) -> tame_map f.
Hypothesis tP : if pre is Some p then invertible_pre p else True.

Let ha X : nolin (apply_A_pr solve_tri A pre X).
Proof.
rewrite /apply_A_pr /mapsum_call; apply: nl_bind => [|Y].
  apply: nl_bind => [|l]; first by nl.
  apply: nl_bind; last by move=> ?; nl.
  apply: (@nl_mapM_In _ _ (fun p : ttmap R * tensor => tame_map p.1)).
    case=> f Y /= h; apply: nl_bind => [|cs]; first by nl.
    apply: nl_bind => [|ys]; last by nl.
    by case: f h => [ms|p|si so call] h /=; [exact: nl_mpo_call|exact: nl_backward|exact: h].
  elim: (m_maps A) tA => [|f fs IH] H //= a ha; have [h|h] := List.in_app_or _ _ _ ha.
    have <- : f = a.1 by elim: (l) h => //= Y l' IHl [<-|/IHl].
    by apply: H; left.
  by apply: IH h => g hg; apply: H; right.
case: pre tP => [p|] hp; last exact: nl_ok.
by nl; exact: nl_backward.
Qed.

Lemma nl_step_mpo mr tol sym m beta bn st j : nolin (gmres_step qr svd solve_tri to_normal tt_random stream offset right_seed_of lstsq qr_econ np_lstsq ent
   A pre mr tol sym m beta bn st j).
Proof. by rewrite /gmres_step; nl; try exact: ha. Qed.

Lemma nl_loop_mpo mr tol sym m beta bn n : forall st j, nolin (gmres_loop qr svd solve_tri to_normal tt_random stream offset right_seed_of lstsq qr_econ np_lstsq ent
   A pre mr tol sym m beta bn st j n).
Proof.
elim: n => [|n IH] st j; cbn [gmres_loop]; first exact: nl_ok.
by apply: nl_bind => [|r]; [exact: nl_step_mpo|case: ifP => _; [exact: nl_ok|exact: IH]].
Qed.

(* as C53_gmres_origin, with nothing assumed about the triangular solver beyond its contract, by
   which it raises LinAlgError for singular matrices; invertible matrices lead to no LinAlgError *)
Theorem C53_gmres_total b max_rank final_rank x0 tol maxiter sym m mff :
  nolin (tt_sum_gmres qr svd solve_tri to_normal tt_random stream offset right_seed_of lstsq qr_econ np_lstsq ent
   A b max_rank pre final_rank x0 tol maxiter sym m mff).
Proof.
rewrite /tt_sum_gmres; nl; try exact: ha; try exact: nl_loop_mpo.
by move: tP; match goal with H : pre = Some _ |- _ => rewrite H | _ => idtac end => ?; exact: nl_backward.
Qed.
End Total.

Section Comb.
Variable R : rcfType.
Lemma comb2 (F : (seq nat -> R) -> seq nat -> R) r i : combine (fun=> 0) 2 (fun l => (l == 1%N)%:R) (fun p => iter p F r) i = F r i.
Proof. by rewrite /combine big_ltn // big_nat1 /= mul0r !add0r mul1r. Qed.
Lemma comb1 (F : (seq nat -> R) -> seq nat -> R) r z i : combine (fun=> 0) 1 z (fun p => iter p F r) i = z 0%N * r i.
Proof. by rewrite /combine big_nat1 /= add0r. Qed.
Lemma comb0 (F : nat -> seq nat -> R) z i : combine (fun=> 0) 0 z F i = 0.
Proof. by rewrite /combine big_geq // add0r. Qed.
End Comb.

Section Ex.
Variable R : rcfType.
Notation arr := (nd R).
Variables (to_normal : N -> R) (tt_random : seq nat -> seq nat -> N -> seq arr) (stream : N -> nat -> R) (offset : N -> nat -> N) (right_seed_of : N -> nat -> N)
  (ent : nat -> nat -> N).
Hypothesis rndP : tt_random_ok tt_random.

Definition sw_mpo : seq arr := [:: tab [:: 1; 2; 2; 1]%N (fun i => (nth 0%N i 1 == nth 0%N i 2)%:R); tab [:: 1; 2; 2; 1]%N (fun i => (nth 0%N i 1 != nth 0%N i 2)%:R)].
Definition sw_b : seq arr := [:: tab [:: 1; 2; 1]%N (fun i => (nth 0%N i 1 == 0%N)%:R); tab [:: 1; 2; 1]%N (fun i => (nth 0%N i 1 == 0%N)%:R)].
Notation s := [:: 2; 2]%N.
Notation fs := [:: MapMpo sw_mpo].

Lemma sw_valid : gmres_valid (@qr0 R) fs s sw_b (RTuple [:: 2]%N) None None None RExact RNone [:: 2]%N.
Proof.
split=> //.
- by split=> // [f [<-|[]]|ms [[<-]|[]]] //; split.
- by exists [:: 2]%N.
Qed.

Lemma sw_op x a c : (a < 2)%N -> (c < 2)%N -> op_act fs None s x [:: a; c] = x [:: a; 1 - c]%N.
Proof.
rewrite /op_act /pre_act /maps_act big_seq1 /=.
rewrite /index_iota /= !big_cons !big_nil /mden /sw_mpo /= /dim /= /index_iota /= !big_cons !big_nil.
case: a c => [|[|//]] [|[|//]] _ _; rewrite /get /= ?(mul0r, mul1r, mulr0, mulr1, add0r, addr0) //.

Qed.
Lemma sw_den a c : (a < 2)%N -> (c < 2)%N -> den (TT sw_b) [:: a; c] = ((a == 0%N) && (c == 0%N))%:R.
Proof.
rewrite /= /dim /= /index_iota /= !big_cons !big_nil.
case: a c => [|[|//]] [|[|//]] _ _; rewrite /get /= ?(mul0r, mul1r, mulr0, mulr1, add0r, addr0) //.
Qed.

Notation op := (op_act fs None s).
Notation bd := (den (TT sw_b)).
Notation run m tol := (tt_sum_gmres (@qr0 R) (@svd0 R) (@solve0 R) to_normal tt_random stream offset right_seed_of (@lstsq0 R) (fun A => @qr0 R A) (@np_lstsq0 R) ent
  (MapSum fs s s) sw_b (RTuple [:: 2]%N) None None None tol m false RExact RNone).

Lemma inb22 i : inb s i -> exists a c, [/\ i = [:: a; c], (a < 2)%N & (c < 2)%N].
Proof. by case: i => [|a [|c [|d i]]] //=; rewrite ?andbF // => /and3P[ha hc _]; exists a, c. Qed.

Lemma sw_lin : linear_op s op.
Proof. exact: opL' sw_valid. Qed.
Lemma sw_inj x : eqf s (op x) (fun=> 0) -> eqf s x (fun=> 0).
Proof.
move=> h i /inb22[a [c [-> ha hc]]]; have hc' : (1 - c < 2)%N by clear; lia.
have := h [:: a; 1 - c]%N; rewrite sw_op // (_ : (1 - (1 - c) = c)%N); last by clear -hc; lia.
by apply; rewrite /= ha hc'.
Qed.
Lemma sw_full : full_budget s [:: 2]%N.
Proof. by case. Qed.

Let qP : qr_contract (fun A => @qr0 R A). Proof. by case: (@qr0P R). Qed.
Notation X0 := (x0_of (None : option (seq arr))).
Notation res0 := (fun i => bd i - op X0 i).

Lemma sw_res0 i : inb s i -> res0 i = bd i.
Proof. by case/inb22=> a [c [-> ha hc]]; rewrite sw_op // subr0. Qed.


Lemma sw_r0 : res0 [:: 0; 1 - 0]%N = 0.
Proof. exact: etrans (@sw_res0 [:: 0; 1 - 0]%N isT) (@sw_den 0 (1 - 0) isT isT). Qed.

Definition sw_outcome M := @C45_full_outcome R (@qr0 R) (@svd0 R) to_normal tt_random stream offset right_seed_of (@lstsq0 R) (fun A => @qr0 R A) (@solve0 R) (@np_lstsq0 R) ent
  (@qr0P R) (@svd0P R) (@solve0P R) (@np_lstsq0P R) (@lstsq0P R) qP rndP s [:: 2]%N fs None sw_b (RTuple [:: 2]%N) None None 0 M false RExact RNone sw_valid
  [:: 2]%N erefl sw_full (or_introl erefl) erefl.

Lemma sw_total M tol : nolin (run M tol).
Proof. by apply: C53_gmres_total => //; auto with nl nocore; [exact: qr0P|exact: solve0P|move=> f [<-|[]]]. Qed.

Let sa : (false : bool) -> self_adjoint s op. Proof. by []. Qed.

(* the solution is in the second Krylov space, not in the first *)
Lemma sw_kry2 : eqf s (op (combine X0 2 (fun l => (l == 1%N)%:R) (fun p => iter p op res0))) bd.
Proof.
move=> i /inb22[a [c [-> ha hc]]]; have hc' : (1 - c < 2)%N by clear; lia.
have e : (1 - (1 - c) = c)%N by clear -hc; lia.
by rewrite (sw_op _ ha hc) comb2 (sw_op _ ha hc') e (sw_op _ ha hc) subr0.
Qed.

(* two iterations are made and the system is solved *)
Example C45_nonvacuous : exists o, [/\ run 2 0 = Ok o, run_iters o = 2%N & eqf s (op (run_inp o 5)) bd].
Proof.
have := sw_outcome (isT : (0 < 2)%N) sa sw_inj; case E: (run 2 0) => [o|e] /=.
  move=> [_ k2]; exists o; split=> //.
  have := @C45_full_exact R (@qr0 R) (@svd0 R) to_normal tt_random stream offset right_seed_of (@lstsq0 R) (fun A => @qr0 R A) (@solve0 R) (@np_lstsq0 R) ent
    (@qr0P R) (@svd0P R) (@solve0P R) (@np_lstsq0P R) (@lstsq0P R) qP rndP s [:: 2]%N [:: 2]%N fs None sw_b (RTuple [:: 2]%N) None None 0 2 false RExact RNone sw_valid
    erefl sw_full o E (or_introl erefl) erefl sa.
  rewrite k2 => -[_ _ opt]; have := opt (fun l => (l == 1%N)%:R).
  rewrite [X in _ <= X](@eqf_norm _ _ _ (fun=> 0)) ?nrm0; last by move=> i hi; rewrite sw_kry2 // subrr.
  move=> le0; have /nrm0_eqf h0 : norm2 s (fun i => bd i - op (run_inp o 5) i) = 0 by apply: le_anti; rewrite le0 sqrtr_ge0.
  by move=> i hi; apply/esym/eqP; rewrite -subr_eq0 h0.
move=> [e1|[_ [k hk [z hz]]]]; first by case: (@sw_total 2 0); rewrite E e1.
have h1 : bd [:: 0; 0]%N = 1 by rewrite (@sw_den 0 0 isT isT).
have l2 : (0 < 2)%N by []; have l3 : (1 - 0 < 2)%N by [].
case: k hk hz => [|[|//]] _ hz; have := etrans (hz [:: 0; 0]%N isT) h1; rewrite (sw_op _ l2 l2) ?comb0 ?comb1.
  by move/esym/eqP; rewrite oner_eq0.
by move=> h; have : z 0%N * res0 [:: 0; 1 - 0]%N = 1 := h; move: (res0 _) sw_r0 => r -> /esym/eqP; rewrite mulr0 oner_eq0.
Qed.

(* with a third iteration the run fails: the system has already been solved *)
Example C45_overshoot : run 3 0 = Err NonFinite.
Proof.
have := sw_outcome (isT : (0 < 3)%N) sa sw_inj; case E: (run 3 0) => [o|e] /=.
  by case=> h _; case: h; exists 2%N => //; exists (fun l => (l == 1%N)%:R); exact: sw_kry2.
by move=> [e1|[-> //]]; case: (@sw_total 3 0); rewrite E e1.
Qed.

(* C45_terminates applies to this system: it is solved exactly after at most 4 iterations *)
Example C45_terminates_ex : exists2 n, (0 < n <= 4)%N & exists o, [/\ run n 0 = Ok o, run_iters o = n & eqf s (op (den (g_x o))) bd].
Proof.
have := @C45_terminates R (@qr0 R) (@svd0 R) to_normal tt_random stream offset right_seed_of (@lstsq0 R) (fun A => @qr0 R A) (@solve0 R) (@np_lstsq0 R) ent
    (@qr0P R) (@svd0P R) (@solve0P R) (@np_lstsq0P R) (@lstsq0P R) qP rndP s [:: 2]%N fs None sw_b (RTuple [:: 2]%N) None None 0 false RExact RNone sw_valid
    [:: 2]%N erefl sw_full (or_introl erefl) erefl sa sw_inj sw_full (or_introl erefl).
case=> [M|h|n hn [h _ _]]; [exact: sw_total| |by exists n].
have h0 : op X0 [:: 0; 0]%N = bd [:: 0; 0]%N := h [:: 0; 0]%N isT.
move: h0; rewrite (@sw_den 0 0 isT isT) (sw_op _ (isT : (0 < 2)%N) (isT : (0 < 2)%N)) => /esym/eqP.
by rewrite oner_eq0.
Qed.
End Ex.
Print Assumptions C53_gmres_total.
Print Assumptions C45_nonvacuous.
Print Assumptions C45_terminates_ex.
