(* The train assembled from a streaming sketch is a product of oblique projections. *)
From Coq Require Import String Ascii NArith.
From mathcomp Require Import all_ssreflect all_algebra.
From mathcomp Require Import zify.
From Verif Require Import Py Nd NdThy Ein Utils Tensor Spec LinSpec ChainThy TensorThy TensorThy2 SweepThy NormThy RoundThy Sketch SkSpec SkThy1 RecSpec RecThy1 RecThy2 RecThy3 RecThy4 ArnSpec GmresMath AccThy AccSpec AccThy2.
Set Implicit Arguments. Unset Strict Implicit. Unset Printing Implicit Defensive.
Import GRing.Theory Num.Theory Order.POrderTheory.
Local Open Scope ring_scope.

Section Refold.
Variable R : rcfType.
Implicit Types (s : seq nat) (u v : seq nat -> R).
Lemma refoldE s mu (A : 'M[R]_(prods (take mu.+1 s), prods (drop mu.+1 s))) i j (hi : inb (take mu.+1 s) i) (hj : inb (drop mu.+1 s) j) :
  (mu < size s)%N -> refold A (i ++ j) = A (Ordinal (ravel_lt hi)) (Ordinal (ravel_lt hj)).
Proof.
move=> hm; have si : size i = mu.+1 by rewrite (inb_size hi) size_takel.
rewrite /refold take_size_cat // drop_size_cat // !insubT ?ravel_lt // => h1 h2 /=.
by congr (A _ _); apply: val_inj.
Qed.
Lemma unfolding_refold s mu (A : 'M[R]_(prods (take mu.+1 s), prods (drop mu.+1 s))) : (mu < size s)%N -> unfolding s (refold A) mu = A.
Proof.
move=> hm; apply/matrixP => p q; rewrite mxE (refoldE _ (inb_unravel (ltn_ord p)) (inb_unravel (ltn_ord q))) //.
by congr (A _ _); apply: val_inj; rewrite /= ravelK.
Qed.
Lemma split_at s mu i : (mu < size s)%N -> inb s i -> inb (take mu.+1 s) (take mu.+1 i) /\ inb (drop mu.+1 s) (drop mu.+1 i).
Proof.
move=> hm; rewrite -{1}(cat_take_drop mu.+1 s) -{1}(cat_take_drop mu.+1 i) => h.
have e : inb s i -> size i = size s by exact: inb_size.
have h' : inb s i by move: h; rewrite !cat_take_drop.
have sz : size (take mu.+1 i) = size (take mu.+1 s) by rewrite !size_takel ?(e h').
by move: h; rewrite inb_cat // => /andP.
Qed.
Lemma sqf_unfolding s u mu : sqf (unfolding s u mu) = sum_idx s (fun i => u i ^+ 2).
Proof.
rewrite -[in RHS](cat_take_drop mu.+1 s) sum_idx_cat -(sum_ord (take mu.+1 s)); apply: eq_bigr => p _.
by rewrite -(sum_ord (drop mu.+1 s)); apply: eq_bigr => q _; rewrite mxE.
Qed.
Lemma unfoldingB s u v mu : unfolding s (fun i => u i - v i) mu = unfolding s u mu - unfolding s v mu.
Proof. by apply/matrixP => p q; rewrite !mxE. Qed.
Lemma dist2_unf s u v mu : dist2 s u v = sqf (unfolding s u mu - unfolding s v mu).
Proof. by rewrite -unfoldingB sqf_unfolding. Qed.
Lemma sqf_col m n (A : 'M[R]_(m, n)) : sqf A = \sum_j sqf (col j A).
Proof. by rewrite /sqf exchange_big; apply: eq_bigr => j _; apply: eq_bigr => i _; rewrite big_ord1 mxE. Qed.
Lemma op_mx m (K : 'M[R]_m) k n (V : 'M[R]_(m, n)) : op_bound K k -> sqf (K *m V) <= k ^+ 2 * sqf V.
Proof.
move=> [k0 h]; rewrite (sqf_col (K *m V)) (sqf_col V) big_distrr; apply: ler_sum => j _ /=.
by rewrite !colE -mulmxA.
Qed.
Lemma sqfT m n (A : 'M[R]_(m, n)) : sqf A^T = sqf A.
Proof. by rewrite /sqf exchange_big; apply: eq_bigr => i _; apply: eq_bigr => j _; rewrite mxE. Qed.
Lemma distE s u v : dist s u v = norm2 s (fun i => u i - v i).
Proof. by congr Num.sqrt; apply: eq_sum_idx => i _; rewrite expr2. Qed.
Lemma dist_tri s u v w : dist s u w <= dist s u v + dist s v w.
Proof.
rewrite !distE; apply: le_trans (triangle _ _ _) => //; rewrite le_eqVlt; apply/orP; left; apply/eqP.
by apply: nrm_ext => i _; rewrite addrA subrK.
Qed.
Lemma dist_ge0 s u v : 0 <= dist s u v. Proof. exact: sqrtr_ge0. Qed.
Lemma dist_xx s u : dist s u u = 0.
Proof. by rewrite distE (@nrm_ext _ _ _ (fun _ => 0)) ?nrm0 // => i _; rewrite subrr. Qed.
Lemma dist_ext s u v u' v' : (forall i, inb s i -> u i = u' i) -> (forall i, inb s i -> v i = v' i) -> dist s u v = dist s u' v'.
Proof. by move=> h h'; rewrite !distE; apply: nrm_ext => i hi; rewrite h // h'. Qed.
Lemma dist_unf s u v mu : dist s u v = frob (unfolding s u mu - unfolding s v mu).
Proof. by rewrite /dist (dist2_unf _ _ _ mu). Qed.

Lemma sqrt_le_mul (a b k : R) : 0 <= k -> a <= k ^+ 2 * b -> Num.sqrt a <= k * Num.sqrt b.
Proof.
move=> k0 h; apply: le_trans (ler_wsqrtr h) _; rewrite sqrtrM ?exprn_ge0 // sqrtr_sqr ger0_norm //.
Qed.
Lemma act_left_lip s mu (K : 'M[R]_(prods (take mu.+1 s))) k u v : (mu < size s)%N -> op_bound K k ->
  dist s (act_left K u) (act_left K v) <= k * dist s u v.
Proof.
move=> hm h; rewrite !(dist_unf _ _ _ mu) !unfolding_refold // -mulmxBr.
by apply: sqrt_le_mul; [case: h | apply: op_mx].
Qed.
Lemma act_right_lip s mu (K : 'M[R]_(prods (drop mu.+1 s))) k u v : (mu < size s)%N -> op_bound K^T k ->
  dist s (act_right K u) (act_right K v) <= k * dist s u v.
Proof.
move=> hm h; rewrite !(dist_unf _ _ _ mu) !unfolding_refold // -mulmxBl.
apply: sqrt_le_mul; [by case: h | rewrite -[sqf (_ *m K)]sqfT -[X in _ <= _ * X]sqfT trmx_mul; exact: op_mx].
Qed.
End Refold.

Section Telescope.
Variable R : rcfType.
Variables (s : seq nat) (x : seq nat -> R) (G : nat -> (seq nat -> R) -> seq nat -> R) (k : nat -> R).
Hypothesis k0 : forall mu, (mu < (size s).-1)%N -> 0 <= k mu.
Hypothesis lip : forall mu u v, (mu < (size s).-1)%N -> dist s (G mu u) (G mu v) <= k mu * dist s u v.

Lemma tele_up n : forall mu, (mu + n <= (size s).-1)%N ->
  dist s (foldr G x (iota mu n)) x <= \sum_(mu <= nu < mu + n) (\prod_(mu <= t < nu) k t) * dist s (G nu x) x.
Proof.
elim: n => [|n IH] mu h; first by rewrite addn0 big_geq // dist_xx.
have hm : (mu < (size s).-1)%N by clear -h; lia.
rewrite /= big_ltn; last by clear; lia.
rewrite [\prod_(mu <= t < mu) _]big_geq // mul1r addrC.
apply: le_trans (dist_tri _ _ (G mu x) _) _; rewrite ler_add2r.
apply: le_trans (lip _ _ hm) _.
have h' : (mu.+1 + n <= (size s).-1)%N by clear -h; lia.
apply: le_trans (ler_wpmul2l (k0 hm) (IH _ h')) _; rewrite big_distrr addSnnS /=.
rewrite le_eqVlt; apply/orP; left; apply/eqP; apply: eq_big_nat => nu /andP[hn _].
by rewrite mulrA -big_ltn.
Qed.

Lemma tele_down n : (n <= (size s).-1)%N ->
  dist s (foldr G x (rev (iota 0 n))) x <= \sum_(0 <= nu < n) (\prod_(nu.+1 <= t < n) k t) * dist s (G nu x) x.
Proof.
elim: n => [|n IH] h; first by rewrite big_geq //= dist_xx.
rewrite -addn1 iotaD rev_cat /= add0n addn1 big_nat_recr //= [X in _ <= _ + X * _]big_geq // mul1r.
apply: le_trans (dist_tri _ _ (G n x) _) _; rewrite ler_add2r.
apply: le_trans (lip _ _ h) _; apply: le_trans (ler_wpmul2l (k0 h) (IH (ltnW h))) _; rewrite big_distrr /=.
rewrite le_eqVlt; apply/orP; left; apply/eqP; apply: eq_big_nat => nu /andP[_ hn].
by rewrite big_nat_recr //= mulrA [k n * _]mulrC.
Qed.
End Telescope.
