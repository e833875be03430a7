(* Specification of the generated test tensors and of pseudo-inverses. *)
From Coq Require Import String Ascii.
From mathcomp Require Import all_ssreflect all_algebra.
From Verif Require Import Py Nd LinSpec RecSpec.
Set Implicit Arguments. Unset Strict Implicit. Unset Printing Implicit Defensive.
Import GRing.Theory Num.Theory.
Local Open Scope ring_scope.

Section GenSpec.
Variable R : rcfType.
Notation arr := (nd R).

(* the j-th of n equally spaced points from a to b (a alone if n = 1) *)
Definition grid_point (a b : R) (n j : nat) : R :=
  if (n <= 1)%N then a else a + (b - a) * (j%:R / (n%:R - 1)).

(* sum over the modes of the grid point of the index in that mode *)
Definition grid_sum (a b : R) (shape i : seq nat) : R :=
  \sum_(p <- zip shape i) grid_point a b p.1 p.2.

(* G is the Moore-Penrose inverse of the m x n matrix A *)
Definition penrose m n (A : 'M[R]_(m, n)) (G : 'M[R]_(n, m)) : Prop :=
  [/\ A *m G *m A = A, G *m A *m G = G, (A *m G)^T = A *m G & (G *m A)^T = G *m A].

(* numpy.linalg.pinv *)
Definition pinv_contract (pinv : arr -> res arr) : Prop :=
  forall A m n, is_mat A m n ->
    or_linalg (pinv A) (fun G => is_mat G n m /\ penrose (amat A m n) (amat G n m)).
End GenSpec.
