(* From rank conditions to factorizations, and exactness of least squares. *)
From Coq Require Import String Ascii NArith.
From mathcomp Require Import all_ssreflect all_algebra.
From mathcomp Require Import zify.
From Verif Require Import Py Nd NdThy Ein Utils Tensor Spec LinSpec ChainThy Sketch SkSpec SkThy1 RecSpec.
Set Implicit Arguments. Unset Strict Implicit. Unset Printing Implicit Defensive.
Import GRing.Theory Num.Theory.
Local Open Scope ring_scope.

Section Mx.
Variable F : fieldType.
Lemma col_range m n r (X : 'M[F]_(m, n)) (G : 'M_(n, r)) : \rank (X *m G) = \rank X -> exists M, X = X *m G *m M.
Proof.
move=> h; have /submxP[D e] : (X^T <= (X *m G)^T)%MS.
  have hs : ((X *m G)^T <= X^T)%MS by rewrite trmx_mul submxMl.
  by rewrite -(geq_leqif (mxrank_leqif_sup hs)) !mxrank_tr h.
by exists D^T; apply: trmx_inj; rewrite [RHS]trmx_mul trmxK.
Qed.
Lemma row_range m n l (X : 'M[F]_(m, n)) (L : 'M_(l, m)) : \rank (L *m X) = \rank X -> exists N, X = N *m (L *m X).
Proof.
move=> h; have /submxP[D e] : (X <= L *m X)%MS.
  by rewrite -(geq_leqif (mxrank_leqif_sup (submxMl L X))) h.
by exists D.
Qed.
Lemma rank_both m n l r (X : 'M[F]_(m, n)) (L : 'M_(l, m)) (G : 'M_(n, r)) : \rank (L *m X *m G) = \rank X ->
  \rank (X *m G) = \rank X /\ \rank (L *m X) = \rank X.
Proof.
move=> h; split; apply/eqP; rewrite eqn_leq; apply/andP; split.
- exact: mxrankM_maxl.
- by rewrite -{1}h -mulmxA mxrankM_maxr.
- exact: mxrankM_maxr.
- by rewrite -{1}h mxrankM_maxl.
Qed.
End Mx.

Section Real.
Variable R : rcfType.
Notation arr := (nd R).
Implicit Types (s : seq nat) (x : seq nat -> R).

Lemma sum_ord s (h : seq nat -> R) : \sum_(p < prods s) h (unravel s p) = sum_idx s h.
Proof. by rewrite sum_idx_flat big_mkord. Qed.

Lemma unf_g s x mu g r i b : inb (take mu.+1 s) i -> forall hi : (ravel (take mu.+1 s) i < prods (take mu.+1 s))%N,
  (unfolding s x mu *m fmat (drop mu.+1 s) g r) (Ordinal hi) b = sum_idx (drop mu.+1 s) (fun j => x (i ++ j) * g j b).
Proof.
move=> ii hi; rewrite mxE -(sum_ord (drop mu.+1 s)); apply: eq_bigr => p _.
by rewrite !mxE /= unravelK.
Qed.

Lemma range_of s x mu g r : \rank (unfolding s x mu *m fmat (drop mu.+1 s) g r) = \rank (unfolding s x mu) ->
  exists M, forall i j, inb (take mu.+1 s) i -> inb (drop mu.+1 s) j ->
   x (i ++ j) = \sum_(0 <= b < r) sum_idx (drop mu.+1 s) (fun j' => x (i ++ j') * g j' b) * M b j.
Proof.
move=> h; have [M e] := col_range h.
exists (fun b j => match insub b, insub (ravel (drop mu.+1 s) j) with Some b', Some q => M b' q | _, _ => 0 end).
move=> i j hi hj; have pi := ravel_lt hi; have pj := ravel_lt hj.
have := congr1 (fun A : 'M_(_, _) => A (Ordinal pi) (Ordinal pj)) e; rewrite {1}mxE /= !unravelK // => ->.
rewrite mxE big_mkord; apply: eq_bigr => b _; rewrite unf_g //.
by rewrite valK insubT /=; congr (_ * M _ _); apply: val_inj.
Qed.

Lemma corange_of s x mu f l : \rank ((fmat (take mu.+1 s) f l)^T *m unfolding s x mu) = \rank (unfolding s x mu) ->
  exists N, forall i j, inb (take mu.+1 s) i -> inb (drop mu.+1 s) j ->
   x (i ++ j) = \sum_(0 <= a < l) N i a * sum_idx (take mu.+1 s) (fun i' => f i' a * x (i' ++ j)).
Proof.
move=> h; have [N e] := row_range h.
exists (fun i a => match insub (ravel (take mu.+1 s) i), insub a with Some p, Some a' => N p a' | _, _ => 0 end).
move=> i j hi hj; have pi := ravel_lt hi; have pj := ravel_lt hj.
have := congr1 (fun A : 'M_(_, _) => A (Ordinal pi) (Ordinal pj)) e; rewrite {1}mxE /= !unravelK // => ->.
rewrite mxE big_mkord; apply: eq_bigr => a _; rewrite valK insubT /=; congr (_ * _).
by rewrite mxE -(sum_ord (take mu.+1 s)); apply: eq_bigr => p _; rewrite !mxE /= unravelK.
Qed.

Lemma omega_mx s x mu f g l r : (\matrix_(a < l, b < r) Omega_of f g s x mu a b) =
  (fmat (take mu.+1 s) f l)^T *m unfolding s x mu *m fmat (drop mu.+1 s) g r.
Proof.
apply/matrixP=> a b; rewrite -mulmxA !mxE /Omega_of -(sum_ord (take mu.+1 s)); apply: eq_bigr => p _.
rewrite !mxE -(sum_ord (drop mu.+1 s)) big_distrr; apply: eq_bigr => q _ /=.
by rewrite !mxE mulrA.
Qed.

(* if A S = B has a solution, every least squares solution solves it *)
Lemma lsq_exact m n (A : nat -> nat -> R) (v w b : nat -> R) :
  (forall p, (p < m)%N -> b p = \sum_(0 <= q < n) A p q * w q) ->
  (forall i, (i < n)%N -> \sum_(0 <= p < m) A p i * (\sum_(0 <= q < n) A p q * v q - b p) = 0) ->
  forall p, (p < m)%N -> \sum_(0 <= q < n) A p q * v q = b p.
Proof.
move=> hb hn; pose e p := \sum_(0 <= q < n) A p q * (v q - w q).
have eE p : (p < m)%N -> \sum_(0 <= q < n) A p q * v q - b p = e p.
  by move=> hp; rewrite hb // -sumrB; apply: eq_bigr => q _; rewrite mulrBr.
have z : \sum_(0 <= p < m) e p ^+ 2 = 0.
  transitivity (\sum_(0 <= q < n) (v q - w q) * \sum_(0 <= p < m) A p q * e p).
    under [RHS]eq_bigr => q _ do rewrite big_distrr.
    rewrite exchange_big_nat; apply: eq_bigr => p _ /=; rewrite expr2 {1}/e big_distrl.
    by apply: eq_bigr => q _ /=; rewrite mulrCA mulrA.
  rewrite big_nat big1 // => q hq; rewrite (_ : \sum_(0 <= p < m) _ = 0) ?mulr0 // -[RHS](hn q hq).
  by apply: eq_big_nat => p hp; rewrite eE.
move=> p hp; apply/eqP; rewrite -subr_eq0 eE // -sqrf_eq0; apply/eqP.
by rewrite big_mkord in z; have := psumr_eq0P (fun i _ => sqr_ge0 (e (val i))) z => /(_ (Ordinal hp) isT).
Qed.
End Real.
