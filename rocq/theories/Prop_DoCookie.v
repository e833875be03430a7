(* Property C62: scripts/do_cookie.py, the errors reported by experiment_cookie. *)
From Coq Require Import String Ascii NArith.
From mathcomp Require Import all_ssreflect all_algebra.
From mathcomp Require Import zify.
From Verif Require Import Py Nd Utils UtilsNum Tensor TensorNum Sketch Mpo Gmres Mixed Cookie DoCookie Spec LinSpec RecSpec RoundSpec SkSpec MpoSpec GmresSpec ArnSpec GmRunSpec MixedSpec NoLinSpec CookieSpec.
From Verif Require Import NdThy Ein TensorThy TensorThy2 TensorThy3 ChainThy SweepThy NormThy ErrThy RoundThy RoundThy2 TrimThy MixedThy SkThy1 SkThy2 RecThy3 PrecThy.
From Verif Require Import GmresThy1 RoundSumThy GmresThy2 ArnThy GmresThy3 GmresThy4 GmresThy5 LinExist NoLin Prop_Total Prop_RoundSum Prop_RoundSum2 Prop_Gmres Prop_Gmres2 Prop_Gmres3 Prop_GmEx Prop_Prec Prop_Mixed CookieThy Prop_Cookie.
Set Implicit Arguments. Unset Strict Implicit. Unset Printing Implicit Defensive.
Import GRing.Theory Num.Theory.
Local Open Scope ring_scope.

Section P.
Variable R : rcfType.
Notation arr := (nd R).
Notation allpos := (all (fun n => 0 < n)%N).
Variables (qr : arr -> res (arr * arr)) (svd : arr -> res (arr * arr * arr)).
Variable solve_tri : arr -> arr -> res arr.
Variable to_normal : N -> R.
Variable tt_random : seq nat -> seq nat -> N -> seq arr.
Variable stream : N -> nat -> R.
Variable offset : N -> nat -> N.
Variable right_seed_of : N -> nat -> N.
Variable lstsq : arr -> arr -> res arr.
Variable qr_econ : arr -> res (arr * arr).
Variable np_lstsq : arr -> arr -> res (arr * seq R).
Variable fuel : nat.
Hypotheses (qrP : qr_tri_contract qr) (svdP : svd_contract svd) (solP : solve_tri_contract solve_tri) (nplP : np_lstsq_contract np_lstsq).
Hypotheses (lstsqP : lstsq_contract lstsq) (qr_econP : qr_contract qr_econ) (rndP : tt_random_ok tt_random).
Notation round_tt_sum := (round_tt_sum qr svd to_normal tt_random stream offset right_seed_of lstsq qr_econ).
Notation gmres := (tt_sum_gmres qr svd solve_tri to_normal tt_random stream offset right_seed_of lstsq qr_econ np_lstsq).
Notation experiment := (experiment_cookie qr svd solve_tri to_normal tt_random stream offset right_seed_of lstsq qr_econ np_lstsq fuel).
Notation errors := (cookie_errors qr svd solve_tri to_normal tt_random stream offset right_seed_of lstsq qr_econ fuel).
Hypothesis hfuel : (8 < fuel)%N.

Variables (s rkf : seq nat) (fs : seq (ttmap R)) (p : precond R) (B x0 : seq arr) (b : arr) (max_rank : nat).
Variables (maxiter : nat) (tol : R) (m : rounding).
(* a valid problem: linear maps and a preconditioner for shape s, trains B and x0 of that shape *)
Hypothesis valid : gmres_valid qr fs s B (RInt max_rank) (Some p) None (Some x0) m RNone rkf.
Hypothesis eb : to_numpy (TT B) = Ok b.
Notation A := (MapSum fs s s).

(* relative size of a residual; None (infinite) if the right hand side is zero *)
Definition relative_to (r rhs : seq nat -> R) : option R :=
  if norm2 s rhs == 0 then None else Some (norm2 s r / norm2 s rhs).

(* what is reported for the tensor with entries x: the relative residuals of A x = b and of
   P^-1 A x = P^-1 b *)
Definition reported_errors (x : arr) (e : option R * option R) : Prop :=
  e.1 = relative_to (fun j => maps_act fs s (get x) j - get b j) (get b) /\
  e.2 = relative_to (fun j => op_act fs (Some p) s (get x) j - pre_act (Some p) s (get b) j) (pre_act (Some p) s (get b)).

Lemma normE (X : tensor R) (f : seq nat -> R) : wf X -> tshape X = s -> (forall i, inb s i -> den X i = f i) ->
  Num.sqrt (sqnorm_of X) = norm2 s f.
Proof.
move=> w e h; rewrite /norm2 /ipr /sqnorm_of e; congr Num.sqrt; apply: eq_sum_idx => i hi.
by rewrite h // expr2.
Qed.
Lemma distE (X Y : tensor R) (f g : seq nat -> R) : wf X -> tshape X = s -> (forall i, inb s i -> den X i = f i) ->
  (forall i, inb s i -> den Y i = g i) -> Num.sqrt (sqdist X Y) = norm2 s (fun i => f i - g i).
Proof.
move=> w e h h'; rewrite /norm2 /ipr /sqdist e; congr Num.sqrt; apply: eq_sum_idx => i hi.
by rewrite h // h' // expr2.
Qed.

Lemma stands_whole (X : tensor R) : stands_for lstsq (whole X) X.
Proof.
elim/tensor_ind': X => //= t Xs IH; split=> //; elim: Xs IH => [|x Xs IHl] IH //=; split.
  by apply: IH; left.
by apply: IHl => y hy; apply: IH; right.
Qed.
Lemma nesting_sum (X : tensor R) : pos_sum s X -> nesting (whole X) = 1%N.
Proof.
case/pos_sumP=> Xs -> [_ h] /=; congr (_.+1); elim: Xs h => //= Y Ys IH /andP[/pos_trainP[cs -> _] h] /=.
by rewrite IH.
Qed.

Lemma errorP (X : tensor R) cs f g : pos_sum s X -> (forall i, inb s i -> den X i = f i) -> wf_tt cs -> tshape (TT cs) = s -> pos_tt cs ->
  (forall i, inb s i -> den (TT cs) i = g i) ->
  or_linalg (a_error lstsq qr fuel (whole X) (ALeaf (TT cs)) true false false) (fun e => e = relative_to (fun i => f i - g i) g).
Proof.
move=> pX hX w e pc hg; have [wX sX] := train_sum_wf (pos_sum_train pX); have s1 := gv_modes valid.
have s0 : (0 < size (tshape X))%N by rewrite sX; apply: ltn_trans s1.
have hT : stands_for lstsq (ALeaf (TT cs)) (TT cs) by [].
have := a_errorP (n := fuel) (fast := false) (proj1 qrP) true false (stands_whole X) hT wX w (etrans sX (esym e)) s0.
rewrite (nesting_sum pX) [nesting (ALeaf _)]/= => H; apply: or_imp (H _ _ _ _ _) _ => //.
- by case: (X) pX.
- by case: (X) pX.
by move=> v ->; rewrite /expected /relative_to (distE wX sX hX hg) (normE (w : wf (TT cs)) e hg).
Qed.

Let gB : pos_train s (TT B).
Proof. exact: pos_train_good (gv_b valid). Qed.
Let nf : ~~ nilp fs. Proof. by case: (gv_maps valid). Qed.
Let hf f : List.In f fs -> map_ok qr f s s. Proof. by case: (gv_maps valid) => _ h _; exact: h. Qed.
Let hpos : all (@map_pos R) fs. Proof. exact: good_maps_pos (gv_maps valid). Qed.
Let hpre : map_ok qr (MapPre p) s s. Proof. exact: gv_pre valid. Qed.
Let denB i : inb s i -> den (TT B) i = get b i.
Proof.
have [w e _ _] := gv_b valid => hi; have [b' eb' [_ _ g]] := to_numpyE (w : wf (TT B)).
by have [<-] : Ok b' = Ok b := etrans (esym eb') eb; rewrite g // e.
Qed.

(* one rounding of a train and its two errors *)
Lemma pointP ent (X : tensor R) method rank :
  or_linalg (round_tt_sum ent X (RInt rank) None method (2, 1)%N) (fun Y => exists rk, within s rk Y) ->
  or_linalg (errors A B p ent X method rank) (fun e => exists Y y, [/\
    round_tt_sum ent X (RInt rank) None method (2, 1)%N = Ok Y, to_numpy Y = Ok y & reported_errors y e]).
Proof.
rewrite /cookie_errors; case ER: (round_tt_sum _ _ _ _ _ _) => [Y|] //= [rk wY].
have ps : allpos s by case: (gv_b valid).
have [cs eY [w e sz hr]] := wY.
have pY : pos_train s Y.
  apply/pos_trainP; exists cs => //; split=> //; rewrite (pos_ttE w) e ps /=.
  by apply/(all_nthP 0%N) => k; rewrite sz => hk; have /andP[] := hr k hk.
have pY' : pos_any s Y by rewrite /pos_any pY.
have [y ey [wy sy gy]] := to_numpyE (w : wf (TT cs)); rewrite -eY in ey gy.
have denY i : inb s i -> den Y i = get y i by move=> hi; apply: esym; apply: gy; rewrite eY e.
have [wB sB pB] : [/\ wf_tt B, tshape (TT B) = s & pos_tt B].
  by have [w' e' ps' pr'] := gv_b valid; split=> //; rewrite (pos_ttE w') e' ps'.
have [mx _] := map_act_lin hpre.
apply: (or_bind (or_and (mapsum_pos qrP solP s s nf hf hpos pY') (mapsum_callE qrP solP s s nf hf (any_train pY')))) => Z [pZ [_ gZ]].
have gZ' i : inb s i -> den Z i = maps_act fs s (get y) i.
  move=> hi; rewrite gZ // /maps_act; elim: (fs) hf => [|f l IH] h; first by rewrite !big_nil.
  rewrite !big_cons IH; last by move=> g hg; apply: h; right.
  by congr (_ + _); have [ext _] := map_act_lin (h f (or_introl erefl)); apply: ext => // j hj; rewrite denY.
apply: (or_bind (errorP pZ gZ' wB sB pB denB)) => _ ->.
have pZ' : pos_any s Z by rewrite /pos_any pZ orbT.
have ok g : List.In g [:: MapPre p] -> map_ok qr g s s by move=> [<-|].
have n1 : ~~ nilp [:: MapPre p] by [].
have HZ := or_and (mapsum_pos qrP solP s s n1 ok isT pZ') (mapsum_callE qrP solP s s n1 ok (any_train pZ')).
case/pos_sumP: (pZ) => Zs eZ _.
have -> : bind (tensors_of Z) (fun Ys => do Zs <- mapM (fun t => do cs <- cores_of t; do zs <- precond_backward solve_tri p cs; Ok (TT zs)) Ys; do W <- mk_sum Zs;
    do PB <- precond_backward solve_tri p B; do e <- a_error lstsq qr fuel (whole W) (whole (TT PB)) true false false;
    Ok (relative_to (fun i => maps_act fs s (get y) i - get b i) (get b), e)) =
   bind (mapsum_call solve_tri (MapSum [:: MapPre p] s s) Z) (fun W => do PB <- precond_backward solve_tri p B;
     do e <- a_error lstsq qr fuel (whole W) (whole (TT PB)) true false false; Ok (relative_to (fun i => maps_act fs s (get y) i - get b i) (get b), e)).
  rewrite eZ /mapsum_call [tensors_of _]/=; cbn [bind].
  rewrite [m_maps _]/= [flatten _]/= cats0.
  set F := (fun p0 : _ * _ => _); set G := (fun t => _).
  have -> : mapM F [seq (MapPre p, Y0) | Y0 <- Zs] = mapM G Zs by elim: (Zs) => [|V Vs IH] //=; rewrite IH.
  by case: (mapM G Zs).
apply: (or_bind HZ) => W [pW [_ gW]].
have hB := @map_callE R qr solve_tri qrP solP (MapPre p) s s B hpre wB sB.
have hB' := map_call_pos qrP solP hpre (isT : map_pos (MapPre p)) wB sB pB.
apply: (or_bind (or_and hB hB')) => PB [[wP sP gP] /pos_trainP[PB' [EP] [_ _ pP]]]; rewrite -{}EP in pP.
have gW' i : inb s i -> den W i = op_act fs (Some p) s (get y) i.
  by move=> hi; rewrite gW // /maps_act big_seq1 /op_act /pre_act; apply: mx => // j hj; rewrite gZ'.
have gP' i : inb s i -> den (TT PB) i = pre_act (Some p) s (get b) i.
  by move=> hi; rewrite gP // /pre_act; apply: mx => // j hj; rewrite denB.
apply: (or_bind (errorP pW gW' wP sP pP gP')) => _ ->.
by exists Y, y; split.
Qed.

Notation run ent := (gmres ent A B (RInt max_rank) (Some p) None (Some x0) tol maxiter true m RNone).

(* final methods that accept a train *)
Definition sketch_method (mf : rounding) : Prop := match mf with RSketch => True | ROrthSketch => (size s <= 102)%N | _ => False end.

Let within_x ent o : run ent = Ok o -> within s rkf (g_x o).
Proof. exact: (C45_result_rank qrP svdP solP nplP lstsqP qr_econP rndP valid). Qed.

Lemma round_train ent (X : tensor R) rank mf : within s rkf X -> (0 < rank)%N -> sketch_method mf ->
  or_linalg (round_tt_sum ent X (RInt rank) None mf (2, 1)%N) (within s (nseq (size s).-1 rank)).
Proof.
move=> [cs -> [w e _ _]] r0 hm; have s1 := gv_modes valid; have [_ _ ps _] := gv_b valid.
have [x ex _] := to_numpyE (w : wf (TT cs)).
have s0 : (0 < size s)%N by apply: ltn_trans s1.
have pr : process_tt_rank (RInt rank) s false = Ok (nseq (size s).-1 rank) by rewrite /process_tt_rank eqn0Ngt s0 size_nseq eqxx.
have pk : allpos (nseq (size s).-1 rank) by apply/allP => q /nseqP[-> _].
case: mf hm => // hm.
  by have [] := @sketch_any R qr svd to_normal tt_random stream offset right_seed_of lstsq qr_econ lstsqP rndP ent (TT cs) s (RInt rank) _ None 2 1 x w e isT ps s1 isT pr pk ex.
have hm' : (1 < size s <= 102)%N by rewrite s1.
have h := @orth_any R qr svd to_normal tt_random stream offset right_seed_of lstsq qr_econ lstsqP qr_econP rndP ent (TT cs) s (RInt rank) _ None 2 1 x w e isT ps hm' isT pr pk ex.
by apply: or_imp h _ => Y [].
Qed.

(* experiment_cookie with the final rounding methods "sketch" and "orth_sketch": whenever tt_sum_gmres
   returns, the errors of all final ranks are reported (or a LinAlgError is raised): error number i
   belongs to the solution rounded to rank final_round_ranks[i] *)
Theorem C62_errors ent entf o mf ranks : run ent = Ok o -> allpos ranks -> sketch_method mf ->
  or_linalg (experiment A B p x0 maxiter tol ent entf m mf max_rank ranks) (fun r =>
    [/\ r.1 = nth None (g_residual_norm o) (run_iters o), size r.2 = size ranks & forall i, (i < size ranks)%N ->
      exists Y y, [/\ round_tt_sum (entf i) (g_x o) (RInt (nth 0%N ranks i)) None mf (2, 1)%N = Ok Y,
        within s (nseq (size s).-1 (nth 0%N ranks i)) Y, to_numpy Y = Ok y & reported_errors y (nth (None, None) r.2 i)]]).
Proof.
move=> e pr hm; rewrite /experiment_cookie e; cbn [bind]; have wx := within_x e.
have [_ shr _ _ _] : [/\ (1 <= run_iters o <= maxiter)%N, size (g_residual_norm o) = (run_iters o).+1,
   size (g_w_norm o) = (run_iters o).+1 /\ size (g_rank o) = (run_iters o).+1,
   size (g_delta o) = run_iters o /\ size (g_nu o) = run_iters o & size (g_trace o) = (2 * run_iters o + 2)%N].
  by have := C45_outcome to_normal stream offset right_seed_of ent qrP svdP solP nplP lstsqP qr_econP rndP tol maxiter true valid; rewrite e.
have G k l : allpos l -> or_linalg (mapM (fun q => errors A B p (entf q.1) (g_x o) mf q.2) (zip (iota k (size l)) l)) (fun es =>
    size es = size l /\ forall i, (i < size l)%N ->
      exists Y y, [/\ round_tt_sum (entf (k + i)%N) (g_x o) (RInt (nth 0%N l i)) None mf (2, 1)%N = Ok Y,
        within s (nseq (size s).-1 (nth 0%N l i)) Y, to_numpy Y = Ok y & reported_errors y (nth (None, None) es i)]).
  elim: l k => [|r l IH] k //= /andP[r0 hl].
  have h := round_train (entf k) wx r0 hm.
  have h1 : or_linalg (round_tt_sum (entf k) (g_x o) (RInt r) None mf (2, 1)%N) (fun Y => exists rk, within s rk Y).
    by apply: or_imp h _ => Y hY; eexists; exact: hY.
  apply: (or_bind (pointP h1)) => v [Y [y [eY ey hv]]].
  apply: (or_bind (IH k.+1 hl)) => vs [sv hvs]; split=> [/=|]; first by rewrite sv.
  case=> [|i] hi; last by rewrite addnS -addSn; exact: hvs.
  by rewrite addn0; exists Y, y; split=> //; move: h; rewrite eY.
apply: (or_bind (G 0%N ranks pr)) => es [se hes]; split=> //=.
by rewrite (last_nth None) [nth _ (_ :: _) _]/= shr /=.
Qed.

(* but with "exact" or "pairwise" - the script runs half of its experiments with "pairwise" - the
   experiment raises AttributeError after the whole solve: the solution is a train, not a sum of trains *)
Theorem C62_final_method_refuted ent entf o mf ranks : run ent = Ok o -> mf = RExact \/ mf = RPairwise -> ranks != [::] ->
  experiment A B p x0 maxiter tol ent entf m mf max_rank ranks = Err AttributeError.
Proof.
move=> e hm hr; rewrite /experiment_cookie e; cbn [bind]; have [cs -> _] := within_x e.
by case: ranks hr => // r l _; case: hm => ->.
Qed.
End P.

(* ---- symmetric=True ---- *)
Section Sym.
Variable R : rcfType.
Notation arr := (nd R).
Notation d0 := (Nd [::] [::] : arr).

(* operators that multiply every slice x[:, r] by a matrix M r *)
Lemma slices_self_adjoint n t (M : seq nat -> 'M[R]_n.+1) op :
  (forall x a r, (a < n.+1)%N -> inb t r -> op x (a :: r) = \sum_(l < n.+1) M r (inord a) l * x (nat_of_ord l :: r)) ->
  self_adjoint (n.+1 :: t) op <-> forall r, inb t r -> (M r)^T = M r.
Proof.
move=> h; split=> [H r hr|H x y].
  apply/matrixP => c a; rewrite mxE.
  have hd (x : 'I_n.+1) f : ipr (n.+1 :: t) (fun i => (i == nat_of_ord x :: r)%:R) f = f (nat_of_ord x :: r).
    by rewrite /ipr (sum_idx_delta f (_ : inb (n.+1 :: t) (nat_of_ord x :: r))) //= ltn_ord.
  have hs f g : ipr (n.+1 :: t) f g = ipr (n.+1 :: t) g f by rewrite /ipr; apply: eq_sum_idx => i _; rewrite mulrC.
  have := H (fun i => (i == nat_of_ord c :: r)%:R) (fun i => (i == nat_of_ord a :: r)%:R); rewrite hs hd // hd // !h // !inord_val.
  have del x (b : 'I_n.+1) : \sum_(l < n.+1) M r x l * (nat_of_ord l :: r == nat_of_ord b :: r)%:R = M r x b.
    rewrite (bigD1 b) //= eqxx mulr1 big1 ?addr0 // => l lb; rewrite eqseq_cons eqxx andbT.
    by rewrite (_ : (nat_of_ord l == b) = false) ?mulr0 //; apply: contraNF lb => /eqP e; apply/eqP/val_inj.
  by rewrite !del.
have X f g : ipr (n.+1 :: t) f g = sum_idx t (fun r => \sum_(a < n.+1) f (nat_of_ord a :: r) * g (nat_of_ord a :: r)).
  by rewrite /ipr sum_idx_big /= big_mkord.
rewrite !X; apply: eq_sum_idx => r hr.
under eq_bigr => a _ do rewrite h // inord_val big_distrl /=.
under [RHS]eq_bigr => a _ do rewrite h // inord_val big_distrr /=.
rewrite exchange_big /=; apply: eq_bigr => a _; apply: eq_bigr => l _.
by rewrite -[in LHS](H r hr) mxE [RHS]mulrCA mulrA.
Qed.

(* experiment_cookie passes symmetric=True, which is documented to be correct for a self-adjoint
   operator (C45).  For symmetric matrices A_0, A_1, ..., the preconditioned operator of the cookie
   problem is self-adjoint if and only if the matrix of the preconditioner commutes with all of them *)
Theorem C62_symmetric qr As bmat n k A B p : cookie_args As bmat n k -> qr_tri_contract qr ->
  prepare_cookie_problem qr As bmat k = Ok (A, B, p) -> (1 < k)%N -> amat (p_A p) n n \in unitmx ->
  (forall mu i j, (mu < size As)%N -> (i < n)%N -> (j < n)%N -> get (nth d0 As mu) [:: i; j] = get (nth d0 As mu) [:: j; i]) ->
  self_adjoint (cookie_shape As n k) (op_act (m_maps A) (Some p) (cookie_shape As n k)) <->
  forall mu, (mu < size As)%N -> amat (p_A p) n n *m amat (nth d0 As mu) n n = amat (nth d0 As mu) n n *m amat (p_A p) n n.
Proof.
move=> args qrP e k1 up sy; have := C61_prepare args qrP; rewrite e => -[_ hmaps _ [pm _ hP gP] _].
case: n args up sy hmaps hP gP => [|n] args up sy hmaps hP gP; first by case: args => _ _ _ _ [].
have dpos : (0 < size As)%N by case: args.
set s := cookie_shape As n.+1 k in hmaps *; pose P := amat (p_A p) n.+1 n.+1; pose Am mu := amat (nth d0 As mu) n.+1 n.+1.
pose S r := \sum_(0 <= mu < size As) cookie_weight R k mu (0%N :: r) *: Am mu.
have At mu : (mu < size As)%N -> (Am mu)^T = Am mu by move=> hmu; apply/matrixP => i j; rewrite !mxE sy.
have Pt : P^T = P.
  apply/matrixP => i j; rewrite !mxE !gP // sy //; congr (_ + _ * _); apply: eq_big_nat => mu /andP[_ hmu]; exact: sy.
have St r : (S r)^T = S r.
  rewrite /S linear_sum /=; apply: eq_big_nat => mu /andP[_ hmu]; by rewrite linearZ /= At.
have opE x a r : (a < n.+1)%N -> inb (nseq (size As).-1 k) r -> op_act (m_maps A) (Some p) s x (a :: r) =
    \sum_(l < n.+1) (invmx P *m S r) (inord a) l * x (nat_of_ord l :: r).
  move=> ha hr; rewrite /op_act /pre_act /map_act pm /mode_mul /= -/P; case: insubP => [a' _ ea|]; last by rewrite ha.
  have -> : inord a = a' by rewrite -ea inord_val.
  under [RHS]eq_bigr => l _ do rewrite mxE big_distrl /=.
  rewrite exchange_big /=; apply: eq_bigr => q _; rewrite /upd /= drop0.
  under [RHS]eq_bigr => l _ do rewrite -mulrA.
  rewrite -big_distrr /=; congr (_ * _); rewrite hmaps; last by rewrite /s /cookie_shape /= ltn_ord.
  under [RHS]eq_bigr => l _ do rewrite /S summxE big_distrl /=.
  rewrite exchange_big /=; apply: eq_big_nat => mu /andP[_ hmu]; rewrite big_mkord big_distrr /=; apply: eq_bigr => l _.
  rewrite !mxE mulrA /transposed_entry /upd /= drop0 sy //; congr (_ * _ * _).
  by rewrite /cookie_weight; case: (mu).
rewrite (slices_self_adjoint (M := fun r => invmx P *m S r)) //.
have comm r : ((invmx P *m S r)^T = invmx P *m S r) <-> P *m S r = S r *m P.
  rewrite trmx_mul St trmx_inv Pt; split=> h.
    by rewrite -[LHS](mulmxKV up) -(mulmxA P) h mulmxA mulmxV // mul1mx.
  by rewrite -[LHS](mulKmx up) (mulmxA P) h -mulmxA mulmxV // mulmx1.
split=> [H mu hmu|H r hr]; last first.
  apply/comm; rewrite /S mulmx_sumr mulmx_suml; apply: eq_big_nat => mu /andP[_ hmu].
  by rewrite -scalemxAr -scalemxAl; congr (_ *: _); exact: H.
have c0 : 10%:R / k.-1%:R != 0 :> R.
  by rewrite mulf_neq0 ?invr_eq0 ?pnatr_eq0 //; clear -k1; lia.
pose r nu := [seq nat_of_bool (i.+1 == nu) | i <- iota 0 (size As).-1].
have hr nu : inb (nseq (size As).-1 k) (r nu).
  rewrite /r; move: 0%N => z; elim: (size As).-1 z => //= m IH z; rewrite IH andbT.
  by case: (_ == _); [exact: k1|exact: ltn_trans k1].
have w nu q : (0 < q < size As)%N -> cookie_weight R k q (0%N :: r nu) = (q == nu)%:R * (10%:R / k.-1%:R).
  case: q => // q /= hq; rewrite /cookie_weight /= /r (nth_map 0%N) ?size_iota ?nth_iota ?add0n //; clear -hq; lia.
have SE nu : (nu < size As)%N -> S (r nu) = Am 0%N + (if nu == 0%N then 0 else (10%:R / k.-1%:R) *: Am nu).
  move=> hnu; rewrite /S big_ltn // {1}/cookie_weight eqxx scale1r; congr (_ + _).
  transitivity (\sum_(1 <= q < size As) ((q == nu)%:R * (10%:R / k.-1%:R)) *: Am q).
    by apply: eq_big_nat => q hq; rewrite w.
  case: eqP => [->|/eqP n0].
    by rewrite big_nat big1 // => q /andP[q0 _]; rewrite (_ : (q == 0%N) = false) ?mul0r ?scale0r //; clear -q0; lia.
  rewrite (bigD1_seq nu) /= ?iota_uniq ?mem_index_iota ?hnu ?lt0n ?n0 // eqxx mul1r big1 ?addr0 // => q /negPf ->.
  by rewrite mul0r scale0r.
have cm nu : (nu < size As)%N -> P *m S (r nu) = S (r nu) *m P by move=> hnu; apply/comm/H.
have z0 : P *m Am 0%N = Am 0%N *m P by have := cm 0%N dpos; rewrite SE // addr0.
have [->|m0] := eqVneq mu 0%N; first exact: z0.
have := cm mu hmu; rewrite SE // (negPf m0) mulmxDr mulmxDl z0 => /addrI.
by rewrite -scalemxAr -scalemxAl => /(scalerI c0).
Qed.
End Sym.

Section Ex.
Variable R : rcfType.
Notation arr := (nd R).

(* diag(1, 2) and [[1, 1], [1, 1]]: symmetric, the preconditioner is [[6, 5], [5, 7]] *)
Definition ns_A : seq arr := [:: tab [:: 2; 2]%N (fun i => if nth 0%N i 0 == nth 0%N i 1 then (nth 0%N i 0).+1%:R else 0); nones R [:: 2; 2]%N].
Lemma ns_args : cookie_args ns_A (ck_b R) 2 3.
Proof. by split=> // -[|[|//]] _; split. Qed.

(* symmetric=True is justified (C45) for self-adjoint operators; the claim that the operator of the
   cookie problem is self-adjoint for symmetric matrices is false *)
Theorem C62_symmetric_refuted : exists (As : seq arr) b n k A B p, [/\ cookie_args As b n k,
  prepare_cookie_problem (@qr0 R) As b k = Ok (A, B, p), amat (p_A p) n n \in unitmx,
  forall mu i j, (mu < size As)%N -> (i < n)%N -> (j < n)%N -> get (nth (Nd [::] [::]) As mu) [:: i; j] = get (nth (Nd [::] [::]) As mu) [:: j; i] &
  ~ self_adjoint (cookie_shape As n k) (op_act (m_maps A) (Some p) (cookie_shape As n k))].
Proof.
have hp := C61_prepare ns_args (@qr0P R).
have [|[[A B] p] e [_ _ _ [pm _ hP gP] _]] := or_total _ hp.
  by rewrite /prepare_cookie_problem /precond_new; nl; exact: nl_qr0.
have sy mu i j : (mu < 2)%N -> (i < 2)%N -> (j < 2)%N -> get (nth (Nd [::] [::]) ns_A mu) [:: i; j] = get (nth (Nd [::] [::]) ns_A mu) [:: j; i].
  by case: mu i j => [|[|//]] [|[|//]] [|[|//]] _ _ _.
have ent i j : (i < 2)%N -> (j < 2)%N -> get (p_A p) [:: i; j] = (if i == j then 6 + i else 5)%N%:R.
  move=> hi hj; rewrite gP // big_nat1.
  by case: i j hi hj => [|[|//]] [|[|//]] _ _; rewrite /get /= ?mulr1 ?add0r // -natrD.
have up : amat (p_A p) 2 2 \in unitmx.
  pose Q : 'M[R]_2 := 17%:R^-1 *: \matrix_(i, j) if i == j then (if i == 0 then 7%:R else 6%:R) else - 5%:R.
  suff : amat (p_A p) 2 2 *m Q = 1%:M by case/mulmx1_unit.
  rewrite -scalemxAr; apply/matrixP => i j; rewrite !mxE !big_ord_recl big_ord0 addr0 !mxE /= !ent //.
  have n17 : (17%:R : R) != 0 by rewrite pnatr_eq0.
  apply: (mulfI n17); rewrite mulVKf //.
  case: i j => [[|[|//]] hi] [[|[|//]] hj] /=; rewrite ?mxE /= ?mulrN -?natrM ?mulr1 ?mulr0.
  - by rewrite -natrB.
  - by rewrite addrC subrr.
  - by rewrite subrr.
  - by rewrite addrC -natrB.
exists ns_A, (ck_b R), 2%N, 3%N, A, B, p; split=> //; first exact: ns_args.
move/(C62_symmetric ns_args (@qr0P R) e isT up sy) => /(_ 1%N isT) /matrixP /(_ (inord 0) (inord 1)).
rewrite !mxE !big_ord_recl !big_ord0 !mxE /= !inordK // !ent // /get /= !mulr1 !mul1r !addr0 => /eqP.
by rewrite -!natrD eqr_nat.
Qed.

Variables (to_normal : N -> R) (tt_random : seq nat -> seq nat -> N -> seq arr) (stream : N -> nat -> R) (offset : N -> nat -> N) (right_seed_of : N -> nat -> N)
  (ent : nat -> nat -> N).
Hypothesis rndP : tt_random_ok tt_random.
Definition zero_train : seq arr := [:: zeros R [:: 1; 2; 1]%N; zeros R [:: 1; 3; 1]%N].

Example C62_ex : exists A B p o, [/\ prepare_cookie_problem (@qr0 R) (ck_A 0) (ck_b R) 3 = Ok (A, B, p),
  gmres_valid (@qr0 R) (m_maps A) [:: 2; 3]%N B (RInt 2) (Some p) None (Some zero_train) RExact RNone [:: 2]%N,
  self_adjoint [:: 2; 3]%N (op_act (m_maps A) (Some p) [:: 2; 3]%N) &
  tt_sum_gmres (@qr0 R) (@svd0 R) (@solve0 R) to_normal tt_random stream offset right_seed_of (@lstsq0 R) (fun A => @qr0 R A) (@np_lstsq0 R) ent
     A B (RInt 2) (Some p) None (Some zero_train) 0 1 true RExact RNone = Ok o].
Proof.
have [A [B [p [e u hs]]]] := ck_run (0 : R).
have hr : exists2 rk, process_tt_rank (RInt 2) (cookie_shape (ck_A (0 : R)) 2 3) false = Ok rk & all (fun n => 0 < n)%N rk by exists [:: 2]%N.
have [v eA] := @C61_gmres_valid R _ _ _ _ _ (ck_args 0) (@qr0P R) A B p (RInt 2) None RExact RNone [:: 2]%N e isT hr (conj erefl isT) I I.
have v' : gmres_valid (@qr0 R) (m_maps A) [:: 2; 3]%N B (RInt 2) (Some p) None (Some zero_train) RExact RNone [:: 2]%N.
  by case: v => *; split=> //; split.
have := C61_prepare (ck_args (0 : R)) (@qr0P R); rewrite e => -[_ hmaps [[wB _] [y [ey _ gy]]] [pm _ hP gP] _].
have sa : self_adjoint [:: 2; 3]%N (op_act (m_maps A) (Some p) [:: 2; 3]%N).
  apply/(C62_symmetric (ck_args (0 : R)) (@qr0P R) e isT u).
    by case=> [|[|//]] [|[|//]] [|[|//]] _ _ _.
  have sc mu : (mu < 2)%N -> amat (nth (Nd [::] [::]) (ck_A (0 : R)) mu) 2 2 = 1%:M.
    by case: mu => [|[|//]] _; apply/matrixP => -[[|[|//]] hi] [[|[|//]] hj]; rewrite !mxE.
  by move=> mu hmu; rewrite sc // mulmx1 mul1mx.
have preE x a c : (a < 2)%N -> (c < 3)%N -> pre_act (Some p) [:: 2; 3]%N x [:: a; c] = 6%:R^-1 * x [:: a; c].
  move=> ha hc; have eP : amat (p_A p) 2 2 = 6%:R *: 1%:M.
    apply/matrixP => i j; rewrite !mxE gP // big_nat1.
    by case: i j => [[|[|//]] hi] [[|[|//]] hj]; rewrite /get /= ?mulr1 ?mulr0 ?addr0 // -(natrD _ 1 5).
  have iP : invmx (amat (p_A p) 2 2) = 6%:R^-1 *: 1%:M by rewrite eP invmxZ ?invmx1 // -eP.
  have hi : inb [:: 2; 3]%N [:: a; c] by rewrite /= ha hc.
  rewrite /pre_act /map_act pm [nth _ _ _]/= iP.
  transitivity (6%:R^-1 * mode_mul (1%:M : 'M[R]_2) 0 x [:: a; c]).
    by rewrite /mode_mul big_distrr /=; apply: eq_bigr => l _; rewrite mulrA; congr (_ * _); case: insubP => [? _ _|_]; rewrite ?mxE ?mulr0.
  by rewrite (mode_mul1 _ hi).
have opE x a c : (a < 2)%N -> (c < 3)%N -> op_act (m_maps A) (Some p) [:: 2; 3]%N x [:: a; c] = 6%:R^-1 * ((1 + c%:R * 5%:R) * x [:: a; c]).
  move=> ha hc; have hi : inb [:: 2; 3]%N [:: a; c] by rewrite /= ha hc.
  rewrite /op_act preE //; congr (_ * _); rewrite hmaps // big_ltn // big_nat1 /cookie_weight /=.
  have dl : (10%:R / 2%:R : R) = 5%:R.
    by apply: (mulIf (_ : (2%:R : R) != 0)); rewrite ?pnatr_eq0 // divfK ?pnatr_eq0 // -natrM.
  rewrite dl /index_iota /= !big_cons !big_nil /transposed_entry mulrDl !mul1r; congr (_ + _ * _).
    by case: a ha {hi} => [|[|//]] _; rewrite /get /= ?mul0r ?mul1r ?addr0 ?add0r.
  by case: a ha {hi} => [|[|//]] _; rewrite /get /= ?mul0r ?mul1r ?addr0 ?add0r.
have i2 i : inb [:: 2; 3]%N i -> exists a c, [/\ i = [:: a; c], (a < 2)%N & (c < 3)%N].
  by case: i => [|a [|c [|d i]]] //=; rewrite ?andbF // => /and3P[ha hc _]; exists a, c.
have n6 : (6%:R^-1 : R) != 0 by rewrite invr_eq0 pnatr_eq0.
have inj x : eqf [:: 2; 3]%N (op_act (m_maps A) (Some p) [:: 2; 3]%N x) (fun=> 0) -> eqf [:: 2; 3]%N x (fun=> 0).
  move=> h i hi; have [a [c [ei ha hc]]] := i2 i hi; have := h i hi; rewrite ei opE // => /eqP.
  rewrite mulf_eq0 (negPf n6) /= mulf_eq0 -natrM -(natrD _ 1) pnatr_eq0 /= => /eqP; exact.
have fb : full_budget [:: 2; 3]%N [:: 2]%N by case.
have qP : qr_contract (fun A => @qr0 R A) by case: (@qr0P R).
have := @C45_full_outcome R (@qr0 R) (@svd0 R) to_normal tt_random stream offset right_seed_of (@lstsq0 R) (fun A => @qr0 R A) (@solve0 R) (@np_lstsq0 R) ent
  (@qr0P R) (@svd0P R) (@solve0P R) (@np_lstsq0P R) (@lstsq0P R) qP rndP [:: 2; 3]%N [:: 2]%N (m_maps A) (Some p) B (RInt 2) None (Some zero_train) 0 1 true RExact RNone v'
  [:: 2]%N erefl fb (or_introl erefl) erefl isT (fun=> sa) inj.
rewrite [MapSum _ _ _](_ : _ = A); last exact: esym eA.
set run := tt_sum_gmres _ _ _ _ _ _ _ _ _ _ _ _ _ _ _ _ _ _ _ _ _ _ _.
have nl : nolin run.
  have [up' mp] : invertible_pre (@qr0 R) p /\ m_maps A = ck_maps (ck_A (0 : R)) 2 3.
    move: e; have [dp hA wb eb _] := ck_args (0 : R); rewrite (prepareE 3 hA dp (@qr0 R) wb eb).
    case E: (precond_new _ _ _ _) => [q|] //= [<- _ eq]; split=> //; subst q.
    exists 2%N; split=> //; move: E; rewrite {1}/precond_new; case EQ: (qr0 _) => [QR|] //= [ep].
    by rewrite -ep /precond_new; cbn [p_A]; rewrite EQ.
  rewrite /run; apply: C53_gmres_total => //; auto with nl nocore; [exact: qr0P|exact: solve0P|].
  rewrite mp => f /= [<-|[<-|[]]] cs; rewrite /cookie_map /cookie_call; nl.
case E: run nl => [o|e'] nl; first by move=> _; exists A, B, p, o; split.
move=> [e1|[_ [k hk [z hz]]]]; first by case: nl; rewrite e1.
case: k hk hz => // _ hz; have := hz [:: 0; 0]%N isT; rewrite opE // preE //.
have -> : combine (x0_of (Some zero_train)) 0 z (fun q => iter q (op_act (m_maps A) (Some p) [:: 2; 3]%N)
  (fun i => pre_act (Some p) [:: 2; 3]%N (den (TT B)) i - op_act (m_maps A) (Some p) [:: 2; 3]%N (x0_of (Some zero_train)) i)) [:: 0; 0]%N = 0.
  rewrite /combine big_geq // addr0 /= /dim /= !big_nat1 /get /=; by rewrite mul0r.
have [y' ey' [_ _ gy']] := to_numpyE (wB : wf (TT B)); move: ey'; rewrite ey => -[ey']; subst y'.
have [_ sB _ _] := gv_b v'.
rewrite -gy' ?sB // gy // mulr0 mulr0 /= mulr1 => /esym/eqP; by rewrite (negPf n6).
Qed.
End Ex.

Print Assumptions C62_errors.
Print Assumptions C62_final_method_refuted.
Print Assumptions C62_symmetric.
Print Assumptions C62_symmetric_refuted.
Print Assumptions C62_ex.
