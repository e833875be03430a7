(* The contracts assumed of numpy.linalg.qr / svd / lstsq and scipy.linalg.lstsq / solve_triangular
   (LinSpec.v, RecSpec.v, GmresSpec.v) are consistent: over every real closed field there are
   functions meeting them that return a value for every matrix. *)
From Coq Require Import String Ascii NArith.
From mathcomp Require Import all_ssreflect all_algebra.
From mathcomp Require Import zify.
From Verif Require Import Py Nd Tensor Sketch Mpo Gmres Spec LinSpec RecSpec SkSpec MpoSpec GmresSpec.
From Verif Require Import NdThy Ein MatThy SkThy2 PrecThy LinThy.
Set Implicit Arguments. Unset Strict Implicit. Unset Printing Implicit Defensive.
Import GRing.Theory Num.Theory.
Local Open Scope ring_scope.

Section LinExist.
Variable R : rcfType.
Notation arr := (nd R).

(* a matrix as an array *)
Definition mxg m n (M : 'M[R]_(m, n)) (i j : nat) : R :=
  if (insub i : option 'I_m) is Some i' then if (insub j : option 'I_n) is Some j' then M i' j' else 0 else 0.
Definition nd_of m n (M : 'M[R]_(m, n)) : arr := tab2 m n (mxg M).

Lemma mxgE m n (M : 'M[R]_(m, n)) (i : 'I_m) (j : 'I_n) : mxg M i j = M i j.
Proof. by rewrite /mxg !valK. Qed.
Lemma mxgE2 m n (M : 'M[R]_(m, n)) i j (hi : (i < m)%N) (hj : (j < n)%N) : mxg M i j = M (Ordinal hi) (Ordinal hj).
Proof. by rewrite -mxgE. Qed.
Lemma nd_of_mat m n (M : 'M[R]_(m, n)) : is_mat (nd_of M) m n.
Proof. by split=> //; exact: nwf_tab2. Qed.
Lemma get_nd_of m n (M : 'M[R]_(m, n)) i j : (i < m)%N -> (j < n)%N -> get (nd_of M) [:: i; j] = mxg M i j.
Proof. by move=> hi hj; rewrite get_tab2. Qed.
Lemma amat_nd_of m n (M : 'M[R]_(m, n)) : amat (nd_of M) m n = M.
Proof. by apply/matrixP => i j; rewrite mxE get_nd_of // mxgE. Qed.

(* ---- QR ---- *)
Definition qr_pred m n (M : 'M[R]_(m, n)) (p : 'M[R]_(m, minn m n) * 'M[R]_(minn m n, n)) : bool :=
  [&& p.1^T *m p.1 == 1%:M, M == p.1 *m p.2 & [forall i : 'I_(minn m n), forall j : 'I_n, (j < i)%N ==> (p.2 i j == 0)]].
Lemma qr_ex m n (M : 'M[R]_(m, n)) : exists p, qr_pred M p.
Proof.
have [Q [T [oQ eM uT]]] := qr_exists M (erefl (minn m n)).
exists (Q, T); apply/and3P; split=> /=; [exact/eqP|exact/eqP|].
by apply/forallP => i; apply/forallP => j; apply/implyP => h; apply/eqP; apply: uT.
Qed.
Definition qr0 (A : arr) : res (arr * arr) :=
  if nshape A is [:: m; n] then
    let p := xchoose (qr_ex (amat A m n)) in Ok (nd_of p.1, nd_of p.2)
  else Err ValueError.

Lemma amat_get (A : arr) m n i j (hi : (i < m)%N) (hj : (j < n)%N) : get A [:: i; j] = amat A m n (Ordinal hi) (Ordinal hj).
Proof. by rewrite mxE. Qed.

Lemma ocols_of (Q : arr) m n : (amat Q m n)^T *m amat Q m n = 1%:M -> ocols Q m n.
Proof.
move=> e b c hb hc; move/matrixP: e => /(_ (Ordinal hb) (Ordinal hc)); rewrite !mxE => <-.
by rewrite big_mkord; apply: eq_bigr => i _; rewrite !mxE.
Qed.
Lemma orows_of (V : arr) m n : amat V m n *m (amat V m n)^T = 1%:M -> orows V m n.
Proof.
move=> e b c hb hc; move/matrixP: e => /(_ (Ordinal hb) (Ordinal hc)); rewrite !mxE => <-.
by rewrite big_mkord; apply: eq_bigr => i _; rewrite !mxE.
Qed.

Lemma qr0P : qr_tri_contract qr0.
Proof.
have key A m n : is_mat A m n -> exists Q T, [/\ qr0 A = Ok (nd_of Q, nd_of T) & @qr_pred m n (amat A m n) (Q, T)].
  move=> [wA sA]; rewrite /qr0 sA.
  have := xchooseP (qr_ex (amat A m n)); case: (xchoose _) => Q T h; by exists Q, T.
split=> A m n hA; have [Q [T [-> /and3P[/= /eqP oQ /eqP eA /forallP uT]]]] := key _ _ _ hA; rewrite /or_linalg /=.
  split; [exact: nd_of_mat|exact: nd_of_mat|by apply: ocols_of; rewrite amat_nd_of|].
  move=> i j hi hj; rewrite (amat_get _ hi hj) eA mxE big_mkord; apply: eq_bigr => k _.
  by rewrite !get_nd_of // -(mxgE Q) -(mxgE T).
move=> i j /andP[ji hi] hj; rewrite get_nd_of //.
have := uT (Ordinal hi) => /forallP/(_ (Ordinal hj))/implyP/(_ ji)/eqP <-.
by rewrite -(mxgE T).
Qed.

(* ---- SVD ---- *)
Definition dmx m n (Sg : 'rV[R]_(minn m n)) : 'M[R]_(m, n) := \matrix_(i, j) if i == j :> nat then mxg Sg 0 i else 0.
Definition svd_pred m n (M : 'M[R]_(m, n)) (p : 'M[R]_m * 'M[R]_n * 'rV[R]_(minn m n)) : bool :=
  let: (U, V, Sg) := p in
  [&& U^T *m U == 1%:M, V^T *m V == 1%:M, U^T *m M *m V == dmx Sg,
      [forall k : 'I_(minn m n), 0 <= Sg 0 k] & [forall k : 'I_(minn m n), forall l : 'I_(minn m n), (k <= l)%N ==> (Sg 0 l <= Sg 0 k)]].
Lemma svd_ex m n (M : 'M[R]_(m, n)) : exists p, svd_pred M p.
Proof.
have [U [V [S [[oU oV] eM S0 Sl _]]]] := svd_exists M.
exists (U, V, \row_k S k); apply/and5P; split.
- exact/eqP.
- exact/eqP.
- apply/eqP/matrixP => i j; rewrite eM [RHS]mxE; case: eqP => // e.
  have h : (i < minn m n)%N by rewrite leq_min ltn_ord e ltn_ord.
  by rewrite -[in RHS](_ : nat_of_ord (Ordinal h) = i) // (mxgE _ (0 : 'I_1)) mxE.
- by apply/forallP => k; rewrite mxE; apply: S0.
- by apply/forallP => k; apply/forallP => l; apply/implyP => h; rewrite !mxE; apply: Sl; rewrite h /=.
Qed.
Definition svd0 (A : arr) : res (arr * arr * arr) :=
  if nshape A is [:: m; n] then
    let: (U, V, Sg) := xchoose (svd_ex (amat A m n)) in
    Ok (nd_of U, tab [:: minn m n] (fun i => mxg Sg 0 (nth 0%N i 0)), nd_of V^T)
  else Err ValueError.
Definition svd_red0 (A : arr) : res (arr * arr * arr) :=
  if nshape A is [:: m; n] then
    let: (U, V, Sg) := xchoose (svd_ex (amat A m n)) in
    Ok (tab2 m (minn m n) (mxg U), tab [:: minn m n] (fun i => mxg Sg 0 (nth 0%N i 0)), tab2 (minn m n) n (mxg V^T))
  else Err ValueError.

Lemma svd_sum m n (M : 'M[R]_(m, n)) U V Sg : svd_pred M (U, V, Sg) -> forall i j,
  M i j = \sum_(0 <= k < minn m n) mxg U i k * mxg Sg 0 k * mxg V^T k j.
Proof.
move=> /and5P[/eqP oU /eqP oV /eqP eM _ _] i j.
have -> : M = U *m dmx Sg *m V^T.
  by rewrite -eM !mulmxA (tr_ortho oU) mul1mx -mulmxA (tr_ortho oV) mulmx1.
rewrite -mulmxA mxE; transitivity (\sum_(0 <= k < m) if (k < minn m n)%N then mxg U i k * mxg Sg 0 k * mxg V^T k j else 0).
  rewrite big_mkord; apply: eq_bigr => k _; rewrite (mxgE U) mxE.
  case: ltnP => h.
    have h2 : (k < n)%N by apply: leq_trans h (geq_minr _ _).
    rewrite (bigD1 (Ordinal h2)) //= mxE eqxx big1 ?addr0 => [|l /eqP nl].
      by rewrite mulrA -(mxgE V^T).
    by rewrite mxE ifN ?mul0r //; apply/eqP => e; apply: nl; apply/val_inj.
  rewrite big1 ?mulr0 // => l _; rewrite mxE ifN ?mul0r //.
  have := ltn_ord k; have := ltn_ord l; clear -h; lia.
rewrite [in LHS](big_cat_nat _ _ _ (leq0n _) (geq_minl m n)) /= [X in _ + X]big1_seq ?addr0; last first.
  by move=> k /=; rewrite mem_index_iota => /andP[h _]; rewrite ltnNge h.
by apply: eq_big_nat => k /andP[_ ->].
Qed.

Lemma svd_vals m n (A U' V' : arr) U V Sg : svd_pred (amat A m n) (U, V, Sg) ->
  (forall i k, (i < m)%N -> (k < minn m n)%N -> get U' [:: i; k] = mxg U i k) ->
  (forall k j, (k < minn m n)%N -> (j < n)%N -> get V' [:: k; j] = mxg V^T k j) ->
  svd_values A U' (tab [:: minn m n] (fun i => mxg Sg 0 (nth 0%N i 0))) V' m n.
Proof.
move=> h gU gV; case/and5P: (h) => [_ _ _ /forallP S0 /forallP Sl].
have gS k : (k < minn m n)%N -> get (tab [:: minn m n] (fun i => mxg Sg 0 (nth 0%N i 0))) [:: k] = mxg Sg 0 k.
  by move=> hk; rewrite get_tab //= hk.
split.
- by split=> //; exact: nwf_tab.
- by move=> k hk; rewrite gS // -[k]/(nat_of_ord (Ordinal hk)) (mxgE _ (0 : 'I_1)).
- move=> k l /andP[kl hl]; have hk := leq_ltn_trans kl hl; rewrite !gS //.
  rewrite -[k]/(nat_of_ord (Ordinal hk)) -[l]/(nat_of_ord (Ordinal hl)) !(mxgE _ (0 : 'I_1)).
  by have /forallP/(_ (Ordinal hl))/implyP := Sl (Ordinal hk); apply.
move=> i j hi hj; rewrite (amat_get _ hi hj) (svd_sum h).
by apply: eq_big_nat => k /andP[_ hk]; rewrite gU // gV // gS.
Qed.

Lemma ocols_sub m k (U : 'M[R]_m) : U^T *m U = 1%:M -> (k <= m)%N -> ocols (tab2 m k (mxg U)) m k.
Proof.
move=> oU km b c hb hc.
have hb' := leq_trans hb km; have hc' := leq_trans hc km.
have /matrixP/(_ (Ordinal hb') (Ordinal hc')) := oU; rewrite !mxE => <-.
rewrite big_mkord; apply: eq_bigr => i _; rewrite !get_tab2 // mxE.
by rewrite -!mxgE.
Qed.
Lemma orows_sub n k (V : 'M[R]_n) : V^T *m V = 1%:M -> (k <= n)%N -> orows (tab2 k n (mxg V^T)) k n.
Proof.
move=> oV kn b c hb hc.
have hb' := leq_trans hb kn; have hc' := leq_trans hc kn.
have /matrixP/(_ (Ordinal hb') (Ordinal hc')) := oV; rewrite !mxE => <-.
rewrite big_mkord; apply: eq_bigr => i _; rewrite !get_tab2 // mxE.
by rewrite (mxgE2 _ hb' (ltn_ord i)) (mxgE2 _ hc' (ltn_ord i)) !mxE; congr (V _ _ * V _ _); apply: val_inj.
Qed.

Lemma svd0P : svd_contract svd0.
Proof.
move=> A m n [wA sA]; rewrite /svd0 sA.
have := xchooseP (svd_ex (amat A m n)); case: (xchoose _) => [[U V] Sg] h; rewrite /or_linalg.
case/and5P: (h) => [/eqP oU /eqP oV _ _ _].
split; [exact: nd_of_mat|exact: nd_of_mat|exact: ocols_sub|exact: orows_sub|].
by apply: (svd_vals h) => i k hi hk; rewrite get_nd_of //; [apply: leq_trans hk (geq_minl _ _)|apply: leq_trans hi (geq_minr _ _)].
Qed.
Lemma svd_red0P : svd_red_contract svd_red0.
Proof.
move=> A m n [wA sA]; rewrite /svd_red0 sA.
have := xchooseP (svd_ex (amat A m n)); case: (xchoose _) => [[U V] Sg] h; rewrite /or_linalg.
case/and5P: (h) => [/eqP oU /eqP oV _ _ _].
split; [by split=> //; exact: nwf_tab2|by split=> //; exact: nwf_tab2| | |].
- by apply: ocols_sub => //; exact: geq_minl.
- by apply: orows_sub => //; exact: geq_minr.
by apply: (svd_vals h) => i k hi hk; rewrite get_tab2.
Qed.

(* ---- least squares ---- *)
Lemma normal_sub m n k (A : 'M[R]_(m, n)) (B : 'M[R]_(k, m)) : (B *m A <= A^T *m A)%MS.
Proof.
suff h : (A <= A^T *m A)%MS by apply: submx_trans h; apply: submxMl.
have s : (A^T *m A <= A)%MS by apply: submxMl.
have hk : (kermx (A^T *m A) <= kermx A^T)%MS.
  apply/sub_kermxP; set K := kermx _.
  have K0 : K *m (A^T *m A) = 0 by apply: mulmx_ker.
  apply/matrixP => i j.
  have : dotv (A *m (row i K)^T) (A *m (row i K)^T) = 0.
    have e : A^T *m (A *m (row i K)^T) = 0.
      by apply: trmx_inj; rewrite !trmx_mul !trmxK -mulmxA -row_mul K0 row0 trmx0.
    by rewrite dotv_mul e /dotv mulmx0 mxE.
  move/eqP; rewrite dotv_eq0 => /eqP/(congr1 trmx); rewrite trmx_mul trmxK trmx0 -row_mul => /matrixP/(_ 0 j).
  by rewrite !mxE.
have := mxrankS hk; rewrite !mxrank_ker mxrank_tr => le.
have := mxrankS s; have := rank_leq_col A; have := rank_leq_col (A^T *m A) => l1 l2 l3.
by have := mxrank_leqif_sup s => -[_ <-]; apply/eqP; clear -le l1 l2 l3; lia.
Qed.
Definition lsq m n k (A : 'M[R]_(m, n)) (B : 'M[R]_(m, k)) : 'M[R]_(n, k) := (B^T *m A *m pinvmx (A^T *m A))^T.
Lemma lsqP m n k (A : 'M[R]_(m, n)) (B : 'M[R]_(m, k)) : A^T *m (A *m lsq A B - B) = 0.
Proof.
apply: trmx_inj; rewrite /lsq trmx_mul trmxK linearB /= trmx_mul trmxK mulmxBl -mulmxA trmx0.
by rewrite mulmxKpV ?subrr //; exact: normal_sub.
Qed.
Definition lstsq0 (A B : arr) : res arr :=
  match nshape A, nshape B with
  | [:: m; n], [:: _; k] => Ok (nd_of (lsq (amat A m n) (amat B m k)))
  | _, _ => Err ValueError
  end.
Lemma lstsq0P : lstsq_contract lstsq0.
Proof.
move=> A B m n k [wA sA] [wB sB] _ _ _; rewrite /lstsq0 sA sB /or_linalg; split; first exact: nd_of_mat.
move=> i j hi hj; have /matrixP/(_ (Ordinal hi) (Ordinal hj)) := lsqP (amat A m n) (amat B m k); rewrite !mxE => h; rewrite -[RHS]h big_mkord.
apply: eq_bigr => p _; rewrite 5!mxE; congr (_ * (_ - _)); last by rewrite ?mxE.
rewrite big_mkord; apply: eq_bigr => q _; rewrite mxE get_nd_of //.
by rewrite (mxgE2 _ (ltn_ord q) hj); congr (_ * lsq _ _ _ _); apply: val_inj.
Qed.

(* ---- triangular solve ---- *)
Definition solve0 (T B : arr) : res arr :=
  match nshape T, nshape B with
  | [:: n; _], [:: _; k] => if amat T n n \in unitmx then Ok (nd_of (invmx (amat T n n) *m amat B n k)) else Err LinAlgError
  | _, _ => Err ValueError
  end.
Lemma solve0P : solve_tri_contract solve0.
Proof.
move=> T B n k [wT sT] [wB sB] uT; rewrite -(upper_unit uT) /solve0 sT sB; case: (boolP (amat T n n \in unitmx)) => // u.
rewrite ?u; exists (nd_of (invmx (amat T n n) *m amat B n k)); rewrite ?u //; split; first exact: nd_of_mat.
move=> i j hi hj; rewrite (amat_get _ hi hj) -[in RHS](mulKVmx u (amat B n k)) mxE big_mkord; apply: eq_bigr => l _.
by rewrite mxE get_nd_of // -[j in mxg _ _ j]/(nat_of_ord (Ordinal hj)) mxgE.
Qed.

(* ---- numpy.linalg.lstsq ---- *)
Definition np_lstsq0 (A b : arr) : res (arr * seq R) :=
  match nshape A with
  | [:: m; n] =>
      let y := tab [:: n] (fun i => mxg (lsq (amat A m n) (\col_(i < m) get b [:: nat_of_ord i])) (nth 0%N i 0) 0) in
      let resid p := \sum_(0 <= q < n) get A [:: p; q] * get y [:: q] - get b [:: p] in
      Ok (y, if \rank (amat A m n) == n then [:: \sum_(0 <= p < m) resid p ^+ 2] else [::])
  | _ => Err ValueError
  end.
Lemma np_lstsq0P : np_lstsq_contract np_lstsq0.
Proof.
move=> A b m n [wA sA] [wb sb] _; rewrite /np_lstsq0 sA /or_linalg; split=> //=.
  by split=> //; exact: nwf_tab.
move=> i hi; have /matrixP/(_ (Ordinal hi) (0 : 'I_1)) := lsqP (amat A m n) (\col_(i < m) get b [:: nat_of_ord i]); rewrite !mxE => h; rewrite -[RHS]h big_mkord.
apply: eq_bigr => p _; rewrite 5!mxE; congr (_ * (_ - _)); last by rewrite ?mxE.
rewrite big_mkord; apply: eq_bigr => q _; rewrite mxE get_tab /= ?ltn_ord //.
by rewrite (mxgE2 _ (ltn_ord q) (ltn0Sn 0)); congr (_ * lsq _ _ _ _); apply: val_inj.
Qed.

(* none of them raises on a matrix *)
Lemma qr0_total A m n : is_mat A m n -> exists QR, qr0 A = Ok QR.
Proof. by case=> _ sA; rewrite /qr0 sA; eexists. Qed.
Lemma svd0_total A m n : is_mat A m n -> exists USV, svd0 A = Ok USV.
Proof. by case=> _ sA; rewrite /svd0 sA; case: (xchoose _) => [[U V] Sg]; eexists. Qed.
Lemma svd_red0_total A m n : is_mat A m n -> exists USV, svd_red0 A = Ok USV.
Proof. by case=> _ sA; rewrite /svd_red0 sA; case: (xchoose _) => [[U V] Sg]; eexists. Qed.
Lemma lstsq0_total A B m n k : is_mat A m n -> is_mat B m k -> exists S, lstsq0 A B = Ok S.
Proof. by case=> _ sA [_ sB]; rewrite /lstsq0 sA sB; eexists. Qed.
Lemma np_lstsq0_total A b m n : is_mat A m n -> exists S, np_lstsq0 A b = Ok S.
Proof. by case=> _ sA; rewrite /np_lstsq0 sA; eexists. Qed.

Theorem contracts_consistent :
  [/\ qr_tri_contract qr0, svd_contract svd0, svd_red_contract svd_red0, lstsq_contract lstsq0 &
      solve_tri_contract solve0 /\ np_lstsq_contract np_lstsq0].
Proof. by split; [exact: qr0P|exact: svd0P|exact: svd_red0P|exact: lstsq0P|split; [exact: solve0P|exact: np_lstsq0P]]. Qed.
End LinExist.
Print Assumptions contracts_consistent.
