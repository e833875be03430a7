(* Existence of QR and singular value decompositions over any real closed field. *)
From mathcomp Require Import all_ssreflect all_algebra.
From mathcomp Require Import zify.
From mathcomp Require Import polyrcf complex.
Set Implicit Arguments. Unset Strict Implicit. Unset Printing Implicit Defensive.
Import Order.POrderTheory Order.TotalTheory GRing.Theory Num.Theory.
Local Open Scope ring_scope.

Section Mat.
Variable R : rcfType.

Definition dotv m (u v : 'cV[R]_m) : R := (u^T *m v) 0 0.
Definition orthm m n (Q : 'M[R]_(m, n)) : Prop := Q^T *m Q = 1%:M.

Lemma dotvE m (u v : 'cV[R]_m) : dotv u v = \sum_i u i 0 * v i 0.
Proof. by rewrite /dotv mxE; apply: eq_bigr => i _; rewrite mxE. Qed.
Lemma dotvC m (u v : 'cV[R]_m) : dotv u v = dotv v u.
Proof. by rewrite !dotvE; apply: eq_bigr => i _; rewrite mulrC. Qed.
Lemma dotvBl m (u v w : 'cV[R]_m) : dotv (u - v) w = dotv u w - dotv v w.
Proof. by rewrite /dotv linearB /= mulmxBl !mxE. Qed.
Lemma dotvZl m a (u v : 'cV[R]_m) : dotv (a *: u) v = a * dotv u v.
Proof. by rewrite /dotv linearZ /= -scalemxAl mxE. Qed.
Lemma dotvBr m (u v w : 'cV[R]_m) : dotv w (u - v) = dotv w u - dotv w v.
Proof. by rewrite dotvC dotvBl !(dotvC w). Qed.
Lemma dotvDl m (u v w : 'cV[R]_m) : dotv (u + v) w = dotv u w + dotv v w.
Proof. by rewrite /dotv linearD /= mulmxDl !mxE. Qed.
Lemma dotvZr m a (u v : 'cV[R]_m) : dotv v (a *: u) = a * dotv v u.
Proof. by rewrite dotvC dotvZl dotvC. Qed.
Lemma dotv_ge0 m (u : 'cV[R]_m) : 0 <= dotv u u.
Proof. by rewrite dotvE; apply: sumr_ge0 => i _; rewrite -expr2 sqr_ge0. Qed.
Lemma dotv_eq0 m (u : 'cV[R]_m) : (dotv u u == 0) = (u == 0).
Proof.
rewrite dotvE psumr_eq0; last by move=> i _; rewrite -expr2 sqr_ge0.
apply/idP/eqP => [/allP h|->]; last by apply/allP => i _ /=; rewrite !mxE mulr0 eqxx.
apply/matrixP => i j; rewrite (ord1 j) !mxE; have := h i; rewrite mem_index_enum => /(_ isT) /=.
by rewrite mulf_eq0 orbb => /eqP.
Qed.
Lemma dotv_mul m n (Q : 'M[R]_(m, n)) (u : 'cV_n) (v : 'cV_m) : dotv (Q *m u) v = dotv u (Q^T *m v).
Proof. by rewrite /dotv trmx_mul mulmxA. Qed.

Lemma vvT m (v w : 'cV[R]_m) : v *m v^T *m w = dotv v w *: v.
Proof.
by rewrite -mulmxA; apply/matrixP => i j; rewrite (ord1 j) !mxE big_ord1 mulrC; congr (_ * _).
Qed.

Definition e1 m : 'cV[R]_m.+1 := delta_mx 0 0.
Lemma dot_e1 m (u : 'cV[R]_m.+1) : dotv u (e1 m) = u 0 0.
Proof.
rewrite dotvE (bigD1 ord0) //= big1 ?addr0; first by rewrite !mxE !eqxx mulr1.
by move=> i hi; rewrite !mxE (negbTE hi) mulr0.
Qed.

(* Householder reflections *)
Lemma householder m (u : 'cV[R]_m.+1) : exists P : 'M[R]_m.+1,
  [/\ P^T = P, P *m P = 1%:M & P *m u = Num.sqrt (dotv u u) *: e1 m].
Proof.
set a := Num.sqrt _; pose v := u - a *: e1 m.
have [v0|v0] := eqVneq v 0.
  exists 1%:M; rewrite trmx1 !mul1mx; split=> //; by apply/eqP; rewrite -subr_eq0 -/v v0.
have vv : dotv v v != 0 by rewrite dotv_eq0.
pose P := 1%:M - (2%:R / dotv v v) *: (v *m v^T).
have Pw (w : 'cV_m.+1) : P *m w = w - (2%:R / dotv v v * dotv v w) *: v.
  by rewrite /P mulmxBl mul1mx -scalemxAl vvT scalerA.
have trP : P^T = P by rewrite /P linearB /= trmx1 linearZ /= trmx_mul trmxK.
exists P; split=> //.
  rewrite {2}/P mulmxBr mulmx1 -scalemxAr mulmxA Pw divfK // mulr2n scalerDl scale1r opprD addrA subrr add0r.
  by rewrite mulNmx scalerN opprK /P subrK.
rewrite Pw -/a; have -> : 2%:R / dotv v v * dotv v u = 1.
  have aa : a ^+ 2 = dotv u u by rewrite sqr_sqrtr ?dotv_ge0.
  have e : dotv v v = 2%:R * dotv v u.
    rewrite {1 3}/v dotvBr dotvZr /v !dotvBl !dotvZl !dot_e1 (dotvC (e1 m)) dot_e1 -aa.
    rewrite !mxE eqxx /= mulr1 mulr2n mulrDl mul1r expr2; set w := u 0 0.
    by rewrite mulrBr opprB; congr (_ + _); rewrite mulrC.
  by rewrite mulrAC -e divff.
by rewrite scale1r opprB addrC subrK.
Qed.

Lemma tr_ortho n (P : 'M[R]_n) : P^T *m P = 1%:M -> P *m P^T = 1%:M.
Proof. by move=> /mulmx1C. Qed.

(* thin QR with an upper triangular factor *)
Definition upper m n (T : 'M[R]_(m, n)) : Prop := forall (i : 'I_m) (j : 'I_n), (j < i)%N -> T i j = 0.

Lemma qr_exists m n k (M : 'M[R]_(m, n)) : k = minn m n ->
  exists (Q : 'M[R]_(m, k)) (T : 'M[R]_(k, n)), [/\ orthm Q, M = Q *m T & upper T].
Proof.
elim: n m k M => [|n IH] [|m] k M ek; try (have k0 : k = 0%N by rewrite ek ?minn0 ?min0n).
- by subst k; exists 0, 0; split; [apply/matrixP => -[]|apply/matrixP => -[]|move=> []].
- by subst k; rewrite k0; exists 0, 0; split; [apply/matrixP => -[]|apply/matrixP => ? []|move=> ? []].
- by subst k; exists 0, 0; split; [apply/matrixP => -[]|apply/matrixP => -[]|move=> []].
have ek' : k = (1 + minn m n)%N by rewrite ek minnSS.
move: M; rewrite -[n.+1]/(1 + n)%N -[m.+1]/(1 + m)%N => M.
have [P [trP PP Pu]] := householder (lsubmx M : 'cV_(1 + m)).
pose PM : 'M[R]_(1 + m, 1 + n) := P *m M.
have [Q' [T' [oQ eM uT]]] := IH m (minn m n) (drsubmx PM) erefl.
subst k; pose B : 'M[R]_(1 + m, 1 + minn m n) := block_mx 1%:M 0 0 Q'.
pose T : 'M[R]_(1 + minn m n, 1 + n) := block_mx (ulsubmx PM) (ursubmx PM) 0 T'.
have d0 : dlsubmx PM = 0.
  have e : lsubmx PM = P *m lsubmx M.
    by rewrite /PM -[in LHS](hsubmxK M) mul_mx_row row_mxKl.
  have -> : dlsubmx PM = dsubmx (lsubmx PM) by apply/matrixP => i j; rewrite !mxE.
  rewrite e Pu; apply/matrixP => i j; rewrite !mxE.
  by rewrite (_ : rshift 1 i == 0 = false) ?mulr0.
have BB : B^T *m B = 1%:M.
  by rewrite /B tr_block_mx !trmx0 trmx1 mulmx_block !mulmx0 !mul0mx !mulmx1 addr0 !add0r oQ -scalar_mx_block.
have ePM : PM = B *m T.
  by rewrite /B /T mulmx_block !mulmx0 !mul0mx !mul1mx !addr0 !add0r -eM -d0 submxK.
rewrite ek'; exists (P *m B), T; split.
- by rewrite /orthm trmx_mul trP mulmxA -(mulmxA _ P P) PP mulmx1.
- by rewrite -mulmxA -ePM /PM mulmxA PP mul1mx.
move=> i j; rewrite /T; case: (split_ordP i) => i' ->; case: (split_ordP j) => j' -> h.
- by move: h; rewrite /= (ord1 i') ltn0.
- by move: h; rewrite /= (ord1 i') ltn0.
- by rewrite block_mxEdl mxE.
by rewrite block_mxEdr; apply: uT.
Qed.

(* a symmetric matrix has a real eigenvector *)
Lemma sym_eig n (A : 'M[R]_n.+1) : A^T = A -> exists a (v : 'cV[R]_n.+1), v != 0 /\ A *m v = a *: v.
Proof.
move=> sA; pose B : 'M[R[i]%C]_n.+1 := map_mx (real_complex R) A.
have [|l] := @closed_rootP (complex_closedField R) (char_poly B) _; first by rewrite size_char_poly.
rewrite -eigenvalue_root_char => /eigenvalueP[w ew w0].
pose x : 'cV[R]_n.+1 := \col_i complex.Re (w 0 i); pose y : 'cV[R]_n.+1 := \col_i complex.Im (w 0 i).
have ex : A *m x = complex.Re l *: x - complex.Im l *: y.
  apply/matrixP => i j; have := congr1 (fun M : 'rV__ => complex.Re (M 0 i)) ew; rewrite !mxE raddf_sum /=.
  move=> e; transitivity (complex.Re (l * w 0 i)); last by case: (l) (w 0 i) => a b [c d].
  rewrite -e; apply: eq_bigr => k _; rewrite !mxE -[in LHS]sA mxE; case: (w 0 k) => c d /=.
  by rewrite mulr0 subr0 mulrC.
have ey : A *m y = complex.Im l *: x + complex.Re l *: y.
  apply/matrixP => i j; have := congr1 (fun M : 'rV__ => complex.Im (M 0 i)) ew; rewrite !mxE raddf_sum /=.
  move=> e; transitivity (complex.Im (l * w 0 i)); last by case: (l) (w 0 i) => a b [c d] /=; rewrite addrC.
  rewrite -e; apply: eq_bigr => k _; rewrite !mxE -[in LHS]sA mxE; case: (w 0 k) => c d /=.
  by rewrite mulr0 add0r mulrC.
have b0 : complex.Im l = 0.
  have : dotv (A *m x) y = dotv x (A *m y) by rewrite dotv_mul sA.
  rewrite ex ey dotvBl !dotvZl [dotv x (_ + _)]dotvC dotvDl !dotvZl (dotvC y x).
  rewrite [RHS]addrC => /addrI e; have /eqP : complex.Im l * (dotv y y + dotv x x) = 0 by rewrite mulrDr -e subrr.
  rewrite mulf_eq0 => /orP[/eqP //|].
  rewrite paddr_eq0 ?dotv_ge0 // !dotv_eq0 => /andP[/eqP y0 /eqP x0]; case/eqP: w0; apply/matrixP => i j.
  rewrite (ord1 i) !mxE; have := congr1 (fun M : 'cV__ => M j 0) x0; have := congr1 (fun M : 'cV__ => M j 0) y0.
  by rewrite !mxE; case: (w 0 j) => a b /= -> ->.
rewrite b0 !scale0r ?subr0 ?add0r in ex ey.
have [x0|x0] := eqVneq x 0; last by exists (complex.Re l), x.
exists (complex.Re l), y; split=> //; apply: contraNneq w0 => y0; apply/eqP/matrixP => i j.
rewrite (ord1 i) !mxE; have := congr1 (fun M : 'cV__ => M j 0) x0; have := congr1 (fun M : 'cV__ => M j 0) y0.
by rewrite !mxE; case: (w 0 j) => a b /= -> ->.
Qed.

Lemma sym_max_eig n (A : 'M[R]_n.+1) : A^T = A -> exists a (v : 'cV[R]_n.+1), [/\ dotv v v = 1, A *m v = a *: v &
  forall b (u : 'cV[R]_n.+1), u != 0 -> A *m u = b *: u -> b <= a].
Proof.
move=> sA; have eigE b : reflect (exists2 u : 'cV[R]_n.+1, u != 0 & A *m u = b *: u) (root (char_poly A) b).
  rewrite -eigenvalue_root_char; apply: (iffP eigenvalueP) => -[u h1 h2].
    by exists u^T; [rewrite -trmx0 (inj_eq trmx_inj)|rewrite -{1}sA -trmx_mul h1 linearZ].
  exists u^T; last by rewrite -trmx0 (inj_eq trmx_inj).
  by rewrite -{1}sA -trmx_mul h2 linearZ.
have p0 : char_poly A != 0 by rewrite -size_poly_eq0 size_char_poly.
have rE b : root (char_poly A) b = (b \in rootsR (char_poly A)).
  by have := roots_on_rootsR p0 b; rewrite inE.
have [a0 [v0 [nv0 ev0]]] := sym_eig sA.
have ra0 : a0 \in rootsR (char_poly A) by rewrite -rE; apply/eigE; exists v0.
have [a ra ma] : exists2 a, a \in rootsR (char_poly A) & forall b, b \in rootsR (char_poly A) -> b <= a.
  elim: (rootsR _) a0 ra0 {ev0} => // c l IH a0; rewrite inE => h.
  case: l IH h => [|c' l] IH h; first by exists c; rewrite ?inE // => b; rewrite inE => /eqP ->.
  have [a ra ma] := IH c' (mem_head _ _); case: (boolP (a <= c)) => h'.
    by exists c; rewrite ?mem_head // => b; rewrite inE => /predU1P[-> //|/ma hb]; apply: le_trans hb h'.
  exists a; first by rewrite inE ra orbT.
  by move=> b; rewrite inE => /predU1P[->|/ma //]; move: h'; rewrite -ltNge => /ltW.
move: ra; rewrite -rE => /eigE[u u0 eu].
have nu : 0 < dotv u u by rewrite lt_def dotv_eq0 u0 dotv_ge0.
exists a, ((Num.sqrt (dotv u u))^-1 *: u); split.
- by rewrite dotvZl dotvZr mulrA -expr2 exprVn sqr_sqrtr ?ltW // mulVf // gt_eqF.
- by rewrite -scalemxAr eu scalerA mulrC -scalerA.
by move=> b w w0 ew; apply: ma; rewrite -rE; apply/eigE; exists w.
Qed.

(* a symmetric positive semidefinite matrix without positive eigenvalues is zero *)
Lemma dot_e1r m : dotv (e1 m) (e1 m) = 1. Proof. by rewrite dot_e1 mxE !eqxx. Qed.
Lemma e1_neq0 m : e1 m != 0. Proof. by rewrite -dotv_eq0 dot_e1r oner_eq0. Qed.

Lemma mul_e1 m n (M : 'M[R]_(m, n.+1)) : M *m e1 n = col 0 M.
Proof. by rewrite /e1 -colE. Qed.

(* a matrix with M e1 = a e1 and M^T e1 = a e1 is block diagonal *)
Lemma block_e1 m n (M : 'M[R]_(1 + m, 1 + n)) a : M *m e1 n = a *: e1 m -> M^T *m e1 m = a *: e1 n ->
  M = block_mx a%:M 0 0 (drsubmx M).
Proof.
rewrite !mul_e1 => h1 h2; rewrite -[LHS]submxK; congr block_mx; apply/matrixP => i j.
- have := congr1 (fun c : 'cV__ => c 0 0) h1; rewrite !mxE (ord1 i) (ord1 j) !eqxx mulr1 => <-.
  by congr (M _ _); apply/val_inj.
- have := congr1 (fun c : 'cV__ => c (rshift 1 j) 0) h2; rewrite !mxE (ord1 i) /= mulr0 => <-.
  by congr (M _ _); apply/val_inj.
have := congr1 (fun c : 'cV__ => c (rshift 1 i) 0) h1; rewrite !mxE (ord1 j) /= mulr0 => <-.
by congr (M _ _); apply/val_inj.
Qed.

Definition emb n (u : 'cV[R]_n) : 'cV[R]_n.+1 := (col_mx (0 : 'cV_1) u : 'cV_(1 + n)).
Lemma emb_dot n (u v : 'cV[R]_n) : dotv (emb u) (emb v) = dotv u v.
Proof.
rewrite /emb; change (dotv (col_mx (0 : 'cV[R]_1) u) (col_mx (0 : 'cV[R]_1) v) = dotv u v).
by rewrite /dotv tr_col_mx trmx0 mul_row_col mul0mx add0r.
Qed.
Lemma emb_eq0 n (u : 'cV[R]_n) : (emb u == 0) = (u == 0).
Proof. by rewrite -!dotv_eq0 emb_dot. Qed.
Lemma emb_mul m n a (D : 'M[R]_(m, n)) u : (block_mx a%:M 0 0 D : 'M_(1 + m, 1 + n)) *m emb u = emb (D *m u).
Proof. by rewrite /emb mul_block_col !mulmx0 !mul0mx addr0 add0r. Qed.
Lemma embZ n a (u : 'cV[R]_n) : emb (a *: u) = a *: emb u.
Proof.
rewrite /emb; change (col_mx (0 : 'cV[R]_1) (a *: u) = a *: col_mx (0 : 'cV[R]_1) u).
by rewrite scale_col_mx scaler0.
Qed.

Lemma psd0 n (A : 'M[R]_n) : A^T = A -> (forall u : 'cV_n, 0 <= dotv u (A *m u)) ->
  (forall b (u : 'cV_n), u != 0 -> A *m u = b *: u -> b <= 0) -> A = 0.
Proof.
elim: n A => [|n IH] A sA pA eA; first by apply/matrixP => -[].
have [a [v [nv ev ma]]] := sym_max_eig sA.
have v0 : v != 0 by rewrite -dotv_eq0 nv oner_eq0.
have a0 : a = 0.
  apply: le_anti; rewrite (eA _ _ v0 ev) /=; have := pA v; by rewrite ev dotvZr nv mulr1.
have [P [trP PP Pv]] := householder v; rewrite nv sqrtr1 scale1r in Pv.
have Pe : P *m e1 n = v by rewrite -Pv mulmxA PP mul1mx.
pose B : 'M[R]_(1 + n) := P *m A *m P.
have sB : B^T = B by rewrite /B !trmx_mul trP sA mulmxA.
have Be : B *m e1 n = 0 *: e1 n by rewrite /B -(mulmxA _ P (e1 n)) Pe -mulmxA ev a0 !scale0r mulmx0.
have eB := block_e1 Be (etrans (congr1 (mulmx^~ _) sB) Be).
have tD : (drsubmx B)^T = drsubmx B by rewrite trmx_drsub sB.
have up (u : 'cV_n) : B *m emb u = emb (drsubmx B *m u) by rewrite {1}eB emb_mul.
suff D0 : drsubmx B = 0.
  have B0 : B = 0 by rewrite eB D0; apply/matrixP => i j; rewrite !mxE; do 2 (case: splitP => ? _; rewrite !mxE ?mul0rn).
  have -> : A = P *m B *m P by rewrite /B !mulmxA PP mul1mx -mulmxA PP mulmx1.
  by rewrite B0 mulmx0 mul0mx.
apply: IH => // [u|b u u0 eu].
  have := pA (P *m emb u); rewrite dotv_mul trP.
  have -> : P *m (A *m (P *m emb u)) = B *m emb u by rewrite /B !mulmxA.
  by rewrite up emb_dot.
apply: (eA b (P *m emb u)).
  apply: contraNneq u0 => /(congr1 (mulmx P)); rewrite mulmxA PP mul1mx mulmx0 => /eqP.
  by rewrite emb_eq0.
have -> : A *m (P *m emb u) = P *m (B *m emb u) by rewrite /B !mulmxA PP mul1mx.
by rewrite up eu embZ -scalemxAr.
Qed.

Lemma svd_exists m n (M : 'M[R]_(m, n)) : exists (U : 'M[R]_m) (V : 'M[R]_n) (S : nat -> R),
  [/\ orthm U /\ orthm V, (forall (i : 'I_m) (j : 'I_n), (U^T *m M *m V) i j = if i == j :> nat then S i else 0),
      (forall k, (k < minn m n)%N -> 0 <= S k), (forall k l, (k <= l < minn m n)%N -> S l <= S k) &
      forall k, (k < minn m n)%N -> exists2 u : 'cV_n, u != 0 & (M^T *m M) *m u = S k ^+ 2 *: u].
Proof.
elim: n m M => [|n IH] m M.
  by exists 1%:M, 1%:M, (fun=> 0); split; rewrite ?minn0 //; [rewrite /orthm !trmx1 !mulmx1|move=> ? []].
case: m M => [|m] M.
  by exists 1%:M, 1%:M, (fun=> 0); split; rewrite ?min0n //; [rewrite /orthm !trmx1 !mulmx1|move=> []].
have sA : (M^T *m M)^T = M^T *m M by rewrite trmx_mul trmxK.
have pA u : 0 <= dotv u (M^T *m M *m u) by rewrite -mulmxA -dotv_mul dotv_ge0.
have [a [v [nv ev ma]]] := sym_max_eig sA.
have v0 : v != 0 by rewrite -dotv_eq0 nv oner_eq0.
have a0 : 0 <= a by have := pA v; rewrite ev dotvZr nv mulr1.
have [az|an] := eqVneq a 0.
  have A0 : M^T *m M = 0 by apply: psd0 => // b u u0 eu; rewrite -az; apply: ma eu.
  have M0 : M = 0.
    apply/matrixP => i j; have : dotv (col j M) (col j M) = 0.
      transitivity ((M^T *m M) j j); last by rewrite A0 mxE.
      by rewrite dotvE mxE; apply: eq_bigr => k _; rewrite !mxE.
    by move/eqP; rewrite dotv_eq0 => /eqP/matrixP/(_ i 0); rewrite !mxE.
  exists 1%:M, 1%:M, (fun=> 0); split=> //.
  - by rewrite /orthm !trmx1 !mulmx1.
  - by move=> i j; rewrite M0 mulmx0 mul0mx mxE; case: ifP.
  move=> k _; exists (e1 n); first exact: e1_neq0.
  by rewrite A0 mul0mx expr0n scale0r.
pose sg := Num.sqrt a; have sg2 : sg ^+ 2 = a by rewrite sqr_sqrtr.
have sg0 : 0 < sg by rewrite sqrtr_gt0 lt_def an a0.
pose u := sg^-1 *: (M *m v).
have nu : dotv u u = 1.
  by rewrite dotvZl dotvZr dotv_mul mulmxA ev dotvZr nv mulr1 mulrA -expr2 exprVn sg2 mulVf.
have Mu : M^T *m u = sg *: v.
  by rewrite -scalemxAr mulmxA ev scalerA -sg2 expr2 mulKf // gt_eqF.
have Mv : M *m v = sg *: u by rewrite scalerA divff ?scale1r // gt_eqF.
have [P [trP PP Pu]] := householder u; rewrite nu sqrtr1 scale1r in Pu.
have [Q [trQ QQ Qv]] := householder v; rewrite nv sqrtr1 scale1r in Qv.
have Pe : P *m e1 m = u by rewrite -Pu mulmxA PP mul1mx.
have Qe : Q *m e1 n = v by rewrite -Qv mulmxA QQ mul1mx.
pose N : 'M[R]_(1 + m, 1 + n) := P *m M *m Q.
have Ne : N *m e1 n = sg *: e1 m by rewrite /N -(mulmxA _ Q (e1 n)) Qe -mulmxA Mv -scalemxAr Pu.
have Ne' : N^T *m e1 m = sg *: e1 n.
  have -> : N^T = Q *m (M^T *m P) by rewrite /N !trmx_mul trP trQ.
  by rewrite -!mulmxA Pe Mu -scalemxAr Qv.
have eN := block_e1 Ne Ne'; set M' := drsubmx N in eN.
have [U' [V' [S' [[oU oV] dS S0 Sd eS]]]] := IH m M'.
pose BU : 'M[R]_(1 + m) := block_mx 1%:M 0 0 U'; pose BV : 'M[R]_(1 + n) := block_mx 1%:M 0 0 V'.
have oB k (W : 'M[R]_k) : orthm W -> orthm (block_mx 1%:M 0 0 W : 'M_(1 + k)).
  by move=> oW; rewrite /orthm tr_block_mx !trmx0 trmx1 mulmx_block !mulmx0 !mul0mx !mulmx1 addr0 !add0r oW -scalar_mx_block.
have oU' : orthm BU := oB _ _ oU; have oV' : orthm BV := oB _ _ oV.
have emin : minn m.+1 n.+1 = (minn m n).+1 by rewrite minnSS.
have eS' k : (k < minn m n)%N -> exists2 w : 'cV_n.+1, w != 0 & M^T *m M *m w = S' k ^+ 2 *: w.
  move=> hk; have [w w0 ew] := eS k hk; exists (Q *m emb w).
    apply: contraNneq w0 => /(congr1 (mulmx Q)); rewrite mulmxA QQ mul1mx mulmx0 => /eqP.
    by rewrite emb_eq0.
  have -> : M^T *m M *m (Q *m emb w) = Q *m (N^T *m (N *m emb w)).
    by rewrite /N !trmx_mul trP trQ !mulmxA QQ mul1mx -(mulmxA _ P P) PP mulmx1.
  by rewrite eN tr_block_mx !trmx0 tr_scalar_mx !emb_mul mulmxA ew embZ -scalemxAr.
exists (P *m BU), (Q *m BV), (fun k => if k is k'.+1 then S' k' else sg); split.
- split; rewrite /orthm trmx_mul ?trP ?trQ.
    by rewrite -mulmxA [P *m (P *m _)]mulmxA PP mul1mx.
  by rewrite -mulmxA [Q *m (Q *m _)]mulmxA QQ mul1mx.
- move=> i j; have -> : (P *m BU)^T *m M *m (Q *m BV) = BU^T *m N *m BV.
    by rewrite /N trmx_mul trP !mulmxA.
  rewrite eN /BU /BV tr_block_mx !trmx0 trmx1 !mulmx_block !mulmx0 !mul0mx !mulmx1 !mul1mx !addr0 !add0r.
  have gen (i' : 'I_(1 + m)) (j' : 'I_(1 + n)) : block_mx sg%:M 0 0 (U'^T *m M' *m V') i' j'
      = if i' == j' :> nat then (if i' : nat is k.+1 then S' k else sg) else 0.
    case: (split_ordP i') => k ->; case: (split_ordP j') => l ->.
    + by rewrite block_mxEul (ord1 k) (ord1 l) mxE.
    + by rewrite block_mxEur mxE (ord1 k).
    + by rewrite block_mxEdl mxE (ord1 l).
    by rewrite block_mxEdr dS.
  by rewrite [0 *m V']mul0mx; exact: gen.
- by rewrite emin => -[|k] h; [apply: ltW|apply: S0].
- rewrite emin => -[|k] [|l] //; last exact: Sd.
  rewrite ltnS /= => h; have [w w0 ew] := eS' l h; have := ma _ _ w0 ew.
  by rewrite -sg2 ler_sqr // ?nnegrE ?S0 // ltW.
rewrite emin => -[|k] h; last exact: eS'.
by exists v; rewrite // ev sg2.
Qed.
End Mat.
