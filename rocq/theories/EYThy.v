(* Eckart-Young: the discarded singular values bound the distance to every matrix of rank <= r. *)
From Coq Require Import String Ascii.
From mathcomp Require Import all_ssreflect all_algebra.
From mathcomp Require Import zify.
From Verif Require Import Py Nd NdThy Ein Tensor Spec LinSpec ChainThy NormThy RoundSpec RoundThy LinThy.
Set Implicit Arguments. Unset Strict Implicit. Unset Printing Implicit Defensive.
Import GRing.Theory Num.Theory Order.TTheory.
Local Open Scope ring_scope.

Section EY.
Variable R : rcfType.
Notation arr := (nd R).

Definition fro m n (A : 'M[R]_(m, n)) : R := \tr (A^T *m A).
Lemma froE m n (A : 'M[R]_(m, n)) : fro A = \sum_i \sum_j A i j ^+ 2.
Proof.
rewrite /fro /mxtrace exchange_big /=; apply: eq_bigr => j _; rewrite mxE; apply: eq_bigr => i _.
by rewrite mxE expr2.
Qed.
Lemma fro_ge0 m n (A : 'M[R]_(m, n)) : 0 <= fro A.
Proof. by rewrite froE; apply: sumr_ge0 => i _; apply: sumr_ge0 => j _; apply: sqr_ge0. Qed.
Lemma gram_ge0 m n (A : 'M[R]_(m, n)) j : 0 <= (A^T *m A) j j.
Proof. by rewrite mxE; apply: sumr_ge0 => i _; rewrite mxE -expr2; apply: sqr_ge0. Qed.

Section Proj.
Variables (m q : nat) (Q : 'M[R]_(m, q)).
Hypothesis oQ : Q^T *m Q = 1%:M.
Let P := 1%:M - Q *m Q^T.
Lemma projT : P^T = P.
Proof. by rewrite /P linearB /= trmx1 trmx_mul trmxK. Qed.
Lemma projPP : P *m P = P.
Proof.
rewrite {2}/P mulmxBr mulmx1 {2}/P mulmxBl mul1mx.
have -> : Q *m Q^T *m (Q *m Q^T) = Q *m Q^T by rewrite mulmxA -(mulmxA Q) oQ mulmx1.
by rewrite subrr subr0.
Qed.
Lemma projQ : P *m Q = 0.
Proof. by rewrite /P mulmxBl mul1mx -mulmxA oQ mulmx1 subrr. Qed.
Lemma gram_proj n (M : 'M[R]_(m, n)) : (P *m M)^T *m (P *m M) = M^T *m M - (Q^T *m M)^T *m (Q^T *m M).
Proof.
rewrite trmx_mul projT mulmxA -(mulmxA _ P P) projPP /P mulmxBr mulmx1 mulmxBl; congr (_ - _).
by rewrite trmx_mul trmxK !mulmxA.
Qed.
Lemma fro_proj n (M : 'M[R]_(m, n)) : fro (P *m M) = fro M - fro (Q^T *m M).
Proof. by rewrite /fro gram_proj raddfB. Qed.
Lemma fro_proj_le n (M : 'M[R]_(m, n)) : fro (Q^T *m M) <= fro M.
Proof. by rewrite -subr_ge0 -fro_proj fro_ge0. Qed.
Lemma fro_projP_le n (M : 'M[R]_(m, n)) : fro (P *m M) <= fro M.
Proof. by rewrite fro_proj ger_addl oppr_le0 fro_ge0. Qed.
End Proj.

(* weights in [0, 1] with sum at most r *)
Lemma weights k r (s w : nat -> R) : (r <= k)%N ->
  (forall t, (t < k)%N -> 0 <= s t) -> (forall t u, (t <= u < k)%N -> s u <= s t) ->
  (forall t, (t < k)%N -> 0 <= w t <= 1) -> \sum_(0 <= t < k) w t <= r%:R ->
  \sum_(r <= t < k) s t <= \sum_(0 <= t < k) s t - \sum_(0 <= t < k) s t * w t.
Proof.
move=> rk s0 sl w01 sw; rewrite (big_cat_nat _ _ _ (leq0n r) rk) /= [\sum_(0 <= t < k) s t * w t](big_cat_nat _ _ _ (leq0n r) rk) /=.
pose a : R := if (r < k)%N then s r else 0.
have a0 : 0 <= a by rewrite /a; case: ifP => // h; apply: s0.
have h1 : \sum_(r <= t < k) s t * w t <= a * \sum_(r <= t < k) w t.
  rewrite big_distrr /= big_nat [X in _ <= X]big_nat; apply: ler_sum => t /andP[rt tk].
  have /andP[w0 _] := w01 t tk; rewrite ler_wpmul2r // /a (leq_ltn_trans rt tk); apply: sl; by rewrite rt.
have h2 : a * (\sum_(0 <= t < r) (1 - w t)) <= \sum_(0 <= t < r) s t * (1 - w t).
  rewrite big_distrr /= big_nat [X in _ <= X]big_nat; apply: ler_sum => t /andP[_ tr].
  have tk := leq_trans tr rk; have /andP[_ w1] := w01 t tk; rewrite ler_wpmul2r ?subr_ge0 // /a.
  by case: ifP => [h|_]; [apply: sl; rewrite (ltnW tr)|apply: s0].
have h3 : a * (\sum_(r <= t < k) w t) <= a * \sum_(0 <= t < r) (1 - w t).
  rewrite ler_wpmul2l // sumrB big_const_nat subn0 iter_addr_0 ler_subr_addr.
  by rewrite addrC -(big_cat_nat _ _ _ (leq0n r) rk).
have h4 := le_trans h1 (le_trans h3 h2).
have e : \sum_(0 <= t < r) s t * (1 - w t) = \sum_(0 <= t < r) s t - \sum_(0 <= t < r) s t * w t.
  by rewrite -sumrB; apply: eq_bigr => t _; rewrite mulrBr mulr1.
rewrite e in h4; move: h4; set p1 := \sum_(0 <= t < r) s t; set p2 := \sum_(r <= t < k) s t; set p3 := \sum_(0 <= t < r) s t * w t.
set p4 := \sum_(r <= t < k) s t * w t => h4.
by rewrite -subr_ge0 addrAC addrK opprD addrA subr_ge0.
Qed.

Lemma ey_mx m n k r (M : 'M[R]_(m, n)) (U : 'M[R]_(m, k)) (V : 'M[R]_(k, n)) (s : nat -> R) (F : 'M[R]_(m, r)) (G : 'M[R]_(r, n)) :
  U^T *m U = 1%:M -> V *m V^T = 1%:M -> M = U *m diag_mx (\row_t s t) *m V ->
  (forall t, (t < k)%N -> 0 <= s t) -> (forall t u, (t <= u < k)%N -> s u <= s t) -> (r <= k)%N ->
  \sum_(r <= t < k) s t ^+ 2 <= fro (M - F *m G).
Proof.
move=> oU oV eM s0 sl rk.
have [Q [T [oQ eF _]]] := qr_exists F (erefl (minn m r)).
set q := minn m r in Q T oQ eF; have qr : (q <= r)%N by apply: geq_minr.
apply: le_trans (fro_projP_le oQ _); rewrite mulmxBr eF !mulmxA projQ // !mul0mx subr0 fro_proj //.
set D := diag_mx _ in eM; pose W := Q^T *m U; pose w t := (W^T *m W) t t.
have dD : D^T = D by rewrite /D tr_diag_mx.
have trD k' (A : 'M[R]_(k', k)) : fro (A *m D *m V) = \sum_(t < k) s t ^+ 2 * (A^T *m A) t t.
  rewrite /fro trmx_mul mxtrace_mulC mulmxA -[A *m D *m V *m V^T]mulmxA oV mulmx1 mxtrace_mulC trmx_mul dD.
  rewrite /mxtrace; apply: eq_bigr => t _.
  rewrite mulmxA /D mul_mx_diag mxE -mulmxA mul_diag_mx mxE !mxE [RHS]mulrC expr2 mulrA; congr (_ * _); exact: mulrC.
pose wn t : R := if (insub t : option 'I_k) is Some t' then w t' else 0.
have wnE (t : 'I_k) : wn t = w t by rewrite /wn valK.
have e1 : fro M = \sum_(0 <= t < k) s t ^+ 2.
  by rewrite eM trD oU big_mkord; apply: eq_bigr => t _; rewrite mxE eqxx mulr1.
have e2 : fro (Q^T *m M) = \sum_(0 <= t < k) s t ^+ 2 * wn t.
  by rewrite eM !mulmxA trD big_mkord; apply: eq_bigr => t _; rewrite wnE.
rewrite e1 e2; apply: weights => //.
- by move=> t ht; apply: sqr_ge0.
- by move=> t u h; have /andP[tu uk] := h; rewrite ler_sqr ?nnegrE ?s0 ?sl // (leq_ltn_trans tu uk).
- move=> t ht; rewrite -[t]/(nat_of_ord (Ordinal ht)) wnE gram_ge0 /= -subr_ge0.
  by have := gram_ge0 ((1%:M - Q *m Q^T) *m U) (Ordinal ht); rewrite gram_proj // oU mxE [1%:M _ _]mxE eqxx [X in _ + X]mxE.
have -> : \sum_(0 <= t < k) wn t = fro (U^T *m Q).
  rewrite big_mkord /fro -[in RHS](trmxK (U^T *m Q)) trmxK mxtrace_mulC !trmx_mul !trmxK -/W.
  by rewrite /mxtrace; apply: eq_bigr => t _; rewrite wnE /w /W trmx_mul trmxK.
apply: le_trans (fro_proj_le oU Q) _; rewrite /fro oQ mxtrace1.
by rewrite ler_nat.
Qed.

(* the same for the arrays returned by np.linalg.svd; a matrix of smaller rank rB may be given *)
Lemma eckart_young (A U Sv Vt : arr) m n r rB (f g : nat -> nat -> R) : let k := minn m n in
  (forall b c, (b < k)%N -> (c < k)%N -> \sum_(0 <= i < m) get U [:: i; b] * get U [:: i; c] = (b == c)%:R) ->
  (forall b c, (b < k)%N -> (c < k)%N -> \sum_(0 <= j < n) get Vt [:: b; j] * get Vt [:: c; j] = (b == c)%:R) ->
  svd_values A U Sv Vt m n -> (r <= k)%N -> (rB <= r)%N ->
  \sum_(s <- drop r (ndata Sv)) s ^+ 2 <=
  \sum_(0 <= l < m) \sum_(0 <= p < n) (get A [:: l; p] - \sum_(0 <= c < rB) f l c * g c p) ^+ 2.
Proof.
move=> k oU oV vals rk rB_le; case: (vals) => vS S0 Sl eA; rewrite (@sum_drop R Sv m n r (fun x => x ^+ 2) vS).
pose M : 'M[R]_(m, n) := \matrix_(i, j) get A [:: nat_of_ord i; nat_of_ord j].
pose Um : 'M[R]_(m, k) := \matrix_(i, j) get U [:: nat_of_ord i; nat_of_ord j].
pose Vm : 'M[R]_(k, n) := \matrix_(i, j) get Vt [:: nat_of_ord i; nat_of_ord j].
pose F : 'M[R]_(m, r) := \matrix_(i, c) if (c < rB)%N then f i c else 0.
pose G : 'M[R]_(r, n) := \matrix_(c, j) g c j.
have := @ey_mx m n k r M Um Vm (fun t => get Sv [:: t]) F G.
have h1 : Um^T *m Um = 1%:M.
  by apply/matrixP => b c; rewrite !mxE -oU // big_mkord; apply: eq_bigr => i _; rewrite !mxE.
have h2 : Vm *m Vm^T = 1%:M.
  by apply/matrixP => b c; rewrite !mxE -oV // big_mkord; apply: eq_bigr => i _; rewrite !mxE.
have h3 : M = Um *m diag_mx (\row_t get Sv [:: nat_of_ord t]) *m Vm.
  apply/matrixP => i j; rewrite mxE eA // big_mkord [RHS]mxE; apply: eq_bigr => t _.
  by rewrite mul_mx_diag !mxE.
move=> /(_ h1 h2 h3 S0 Sl rk) h; apply: le_trans h _; rewrite froE big_mkord le_eqVlt; apply/orP; left; apply/eqP.
apply: eq_bigr => i _; rewrite big_mkord; apply: eq_bigr => j _; congr (_ ^+ 2); rewrite !mxE; congr (_ - _).
transitivity (\sum_(0 <= c < r) (if (c < rB)%N then f i c else 0) * g c j); first by rewrite !big_mkord; apply: eq_bigr => c _; rewrite !mxE.
rewrite (big_cat_nat _ _ _ (leq0n rB) rB_le) /= [X in _ + X]big1_seq ?addr0; last first.
  by move=> c; rewrite mem_index_iota /= => /andP[h' _]; rewrite ltnNge h' mul0r.
by apply: eq_big_nat => c /andP[_ ->].
Qed.
End EY.
