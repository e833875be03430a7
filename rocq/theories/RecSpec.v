(* Specification for exact recovery: the contract of scipy.linalg.lstsq, and unfoldings as
   mathematical matrices (so that the rank condition is stated with MathComp's \rank). *)
From Coq Require Import String Ascii NArith.
From mathcomp Require Import all_ssreflect all_algebra.
From Verif Require Import Py Nd Tensor Spec LinSpec Sketch SkSpec.
Set Implicit Arguments. Unset Strict Implicit. Unset Printing Implicit Defensive.
Import GRing.Theory Num.Theory.
Local Open Scope ring_scope.

Section RecSpec.
Variable R : rcfType.
Notation arr := (nd R).

(* scipy.linalg.lstsq(A, B)[0] is a least squares solution S of A S = B (normal equations:
   the residual is orthogonal to the columns of A), or LinAlgError is raised *)
Definition lstsq_contract (lstsq : arr -> arr -> res arr) : Prop :=
  forall A B m n k, is_mat A m n -> is_mat B m k -> (0 < m)%N -> (0 < n)%N -> (0 < k)%N ->
  or_linalg (lstsq A B) (fun S0 => is_mat S0 n k /\
    forall i j, (i < n)%N -> (j < k)%N ->
      \sum_(0 <= p < m) get A [:: p; i] *
         (\sum_(0 <= q < n) get A [:: p; q] * get S0 [:: q; j] - get B [:: p; j]) = 0).

(* a two-dimensional array as a matrix *)
Definition amat (A : arr) (m n : nat) : 'M[R]_(m, n) := \matrix_(i, j) get A [:: nat_of_ord i; nat_of_ord j].

(* the mu-th unfolding of x : rows are the multi-indices of modes 0..mu, columns those of the
   remaining modes *)
Definition unfolding (s : seq nat) (x : seq nat -> R) (mu : nat)
  : 'M[R]_(prods (take mu.+1 s), prods (drop mu.+1 s)) :=
  \matrix_(p, q) x (unravel (take mu.+1 s) p ++ unravel (drop mu.+1 s) q).

(* the matrix with the columns of a right matrix g: rows are the multi-indices of the shape s *)
Definition fmat (s : seq nat) (g : seq nat -> nat -> R) (r : nat) : 'M[R]_(prods s, r) :=
  \matrix_(p, b) g (unravel s p) b.

(* y is the orthogonal projection of x, along all modes but the last, onto the span of the r
   orthonormal columns T: y = (T T^t) x on the unfolding (n_1...n_{d-1}, n_d) *)
Definition proj_of (s : seq nat) (x y : seq nat -> R) (r : nat) (T : seq nat -> nat -> R) : Prop :=
  let s' := take (size s).-1 s in
  (forall b c, (b < r)%N -> (c < r)%N -> sum_idx s' (fun i => T i b * T i c) = (b == c)%:R) /\
  forall i k, inb s' i -> (k < nth 0 s (size s).-1)%N ->
    y (rcons i k) = \sum_(0 <= c < r) T i c * sum_idx s' (fun i' => T i' c * x (rcons i' k)).
End RecSpec.

(* ranks that fit from the left: no rank exceeds the previous rank times the mode size *)
Definition left_fits (s rk : seq nat) : Prop := forall mu, (mu < (size s).-1)%N ->
  (nth 0 rk mu <= (if mu is m.+1 then nth 0 rk m else 1) * nth 0 s mu)%N.
