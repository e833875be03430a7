(* Ranks of products with random matrices: existence of good values, and the probability of
   bad ones. *)
From mathcomp Require Import all_ssreflect all_algebra.
From mathcomp Require Import zify.
From Verif Require Import ProbSpec SZThy AccSpec AccThy AccThy2 AccThy3 AccThy4.
Set Implicit Arguments. Unset Strict Implicit. Unset Printing Implicit Defensive.
Import GRing.Theory Num.Theory Order.POrderTheory.
Local Open Scope ring_scope.

Section Gram.
Variable R : rcfType.
Lemma rank_gram m l n (L : 'M[R]_(m, l)) (X : 'M[R]_(m, n)) (N : 'M[R]_(l, n)) : X = L *m N ->
  \rank (L^T *m X) = \rank X.
Proof.
move=> e; apply/eqP; rewrite eqn_leq mxrankM_maxr /=.
rewrite -(mxrank_tr X) -(mxrank_tr (L^T *m X)) trmx_mul trmxK.
have h : (kermx (X^T *m L) <= kermx X^T)%MS.
  apply/sub_kermxP; set K := kermx _; apply: sqf0.
  have z : K *m (X^T *m L) = 0 by apply: mulmx_ker.
  have z2 : K *m X^T *m X = 0 by move: z; move: (K) => K' z; rewrite {2}e mulmxA -(mulmxA K') z mul0mx.
  by rewrite sqf_tr trmx_mul trmxK mulmxA z2 mul0mx linear0.
have := rank_leq_row X^T; have := rank_leq_row (X^T *m L); move: (mxrankS h); rewrite !mxrank_ker.
by move: (\rank _) (\rank _) => a b; clear; lia.
Qed.

Lemma rank_gram2 m l n r (L : 'M[R]_(m, l)) (X : 'M[R]_(m, n)) (N : 'M[R]_(l, n)) (G : 'M[R]_(n, r)) (M : 'M[R]_(m, r)) :
  X = L *m N -> X = M *m G^T -> \rank (L^T *m X *m G) = \rank X.
Proof.
move=> e1 e2; rewrite -mulmxA (rank_gram (N := N *m G)); last by rewrite e1 mulmxA.
rewrite -mxrank_tr trmx_mul -(mxrank_tr X); apply: (rank_gram (N := M^T)).
by rewrite {1}e2 trmx_mul trmxK.
Qed.

Lemma rank_right m n r (X : 'M[R]_(m, n)) (G : 'M[R]_(n, r)) (M : 'M[R]_(m, r)) :
  X = M *m G^T -> \rank (X *m G) = \rank X.
Proof.
move=> e; have := @rank_gram2 m m n r 1%:M X X G M; rewrite trmx1 !mul1mx; exact.
Qed.

(* a matrix of rank k has an invertible k x k transform *)
Lemma rank_witness l r (A : 'M[R]_(l, r)) : exists U V, U *m A *m V = 1%:M :> 'M_(\rank A).
Proof.
exists (pinvmx (col_base A)), (pinvmx (row_base A)).
transitivity (pinvmx (col_base A) *m (col_base A *m row_base A) *m pinvmx (row_base A)); first by rewrite mulmx_base.
have := mulmxVp (row_base_free A); have := mulVpmx (col_base_full A).
move: (pinvmx _) (pinvmx _) => P Q; move: (col_base A) (row_base A) => C B e1 e2.
by rewrite mulmxA e1 mul1mx.
Qed.
Lemma rank_ge_unit k l r (U : 'M[R]_(k, l)) (A : 'M[R]_(l, r)) (V : 'M[R]_(r, k)) :
  \det (U *m A *m V) != 0 -> (k <= \rank A)%N.
Proof.
move=> h; have : U *m A *m V \in unitmx by rewrite unitmxE unitfE.
rewrite -row_free_unit /row_free => /eqP <-.
apply: leq_trans (mxrankM_maxl _ _) _; exact: mxrankM_maxr.
Qed.
End Gram.

Section Gen.
Variables (R : rcfType) (I V : finType) (wt : I -> V -> R) (p : R).
Hypotheses (wtP : distributions wt p) (p0 : 0 <= p).
Variable vl : I -> V -> R.
Hypothesis vlP : forall i, injective (vl i).
Notation vs := (enum I).

(* the rank of a matrix with polynomial entries falls below a rank that it can have with
   probability at most (rank * degree) p *)
Lemma gen_rank l r D (F : (I -> R) -> 'M[R]_(l, r)) w0 :
  (forall i j, tdeg vs D (fun w => F w i j)) ->
  prob wt [pred w | (\rank (F (asg vl w)) < \rank (F w0))%N] <= (\rank (F w0) * D)%N%:R * p.
Proof.
move=> hF; have [U [W e]] := rank_witness (F w0); set k := \rank (F w0) in U W e *.
pose f w := \det (U *m F w *m W).
have hf : tdeg vs (k * D) f.
  apply: tdeg_det => i j.
  apply: (@tdeg_ext _ _ _ _ (fun w => \sum_a (\sum_b U i b * F w b a) * W a j)).
    by move=> w; rewrite mxE; apply: eq_bigr => a _; rewrite mxE.
  apply: tdeg_sum => a _; apply: (@tdeg_ext _ _ _ _ (fun w => W a j * \sum_b U i b * F w b a)).
    by move=> w; rewrite mulrC.
  by apply: tdeg_scale; apply: tdeg_sum => b _; apply: tdeg_scale.
apply: le_trans (sz wtP p0 vlP (enum_uniq _) hf _); last by exists w0; rewrite /f e det1 oner_neq0.
apply: (prob_le wtP) => w /=; rewrite ltnNge => h.
by apply: contraT => /rank_ge_unit hk; rewrite hk in h.
Qed.

Lemma prob_any (n : nat) (B : nat -> pred {ffun I -> V}) (b : nat -> nat) :
  (forall m, (m < n)%N -> prob wt (B m) <= (b m)%:R * p) ->
  prob wt [pred w | has (fun m => B m w) (iota 0 n)] <= (\sum_(0 <= m < n) b m)%N%:R * p.
Proof.
elim: n => [|n IH] h.
  rewrite big_geq // mul0r -(prob0 wt); apply: (prob_le wtP) => w //.
rewrite big_nat_recr //= natrD mulrDl.
apply: le_trans _ (ler_add (IH _) (h n (ltnSn n))); last by move=> m hm; apply: h; apply: ltnW.
apply: le_trans _ (prob_or wtP _ _); apply: (prob_le wtP) => w hw.
have {hw} : has (fun m => B m w) (iota 0 n.+1) by [].
by rewrite -addn1 iotaD has_cat => /orP[hB|/orP[hB|//]]; apply/orP; [left|right].
Qed.
End Gen.
