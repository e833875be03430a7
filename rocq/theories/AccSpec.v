(* Specification for the accuracy of sketches when recovery is not exact. *)
From Coq Require Import String Ascii NArith.
From mathcomp Require Import all_ssreflect all_algebra.
From Verif Require Import Py Nd Tensor Spec LinSpec Sketch SkSpec RecSpec.
Set Implicit Arguments. Unset Strict Implicit. Unset Printing Implicit Defensive.
Import GRing.Theory Num.Theory.
Local Open Scope ring_scope.

Section AccSpec.
Variable R : rcfType.

(* the square of the Frobenius norm *)
Definition sqf m n (A : 'M[R]_(m, n)) : R := \sum_i \sum_j A i j ^+ 2.

(* the pseudo-inverse of a matrix of full row rank, and of a matrix of full column rank *)
Definition pinv_row l r (W : 'M[R]_(l, r)) : 'M[R]_(r, l) := W^T *m invmx (W *m W^T).
Definition pinv_col l r (W : 'M[R]_(l, r)) : 'M[R]_(r, l) := invmx (W^T *m W) *m W^T.

(* the square of the distance between two arrays of shape s *)
Definition dist2 (s : seq nat) (x y : seq nat -> R) : R := sum_idx s (fun i => (x i - y i) ^+ 2).

(* the matrices of a left DRM D and of a right DRM E at bond mu: rows are the multi-indices of
   modes 0..mu (resp. mu+1..d-1), one column per unit of rank *)
Definition lmat (to_normal : N -> R) (D : drm R) (s : seq nat) (mu : nat) :=
  fmat (take mu.+1 s) (left_fun to_normal D mu) (drm_cols D mu).
Definition rmat (to_normal : N -> R) (o : bool) (E : drm R) (s : seq nat) (mu : nat) :=
  fmat (drop mu.+1 s) (gfam to_normal o E s mu) (drm_cols E (size s - mu.+2)).
End AccSpec.

Section Stream.
Variable R : rcfType.
Implicit Types (s : seq nat) (u : seq nat -> R).
(* the tensor with mu-th unfolding A *)
Definition refold s mu (A : 'M[R]_(prods (take mu.+1 s), prods (drop mu.+1 s))) (i : seq nat) : R :=
  match insub (ravel (take mu.+1 s) (take mu.+1 i)), insub (ravel (drop mu.+1 s) (drop mu.+1 i)) with
  | Some p, Some q => A p q | _, _ => 0 end.
(* K acts on the first mu+1 modes (from the left) or on the others (from the right) *)
Definition act_left s mu (K : 'M[R]_(prods (take mu.+1 s))) u := refold (K *m unfolding s u mu).
Definition act_right s mu (K : 'M[R]_(prods (drop mu.+1 s))) u := refold (unfolding s u mu *m K).
(* K does not stretch vectors by more than k *)
Definition op_bound m (K : 'M[R]_m) (k : R) : Prop := 0 <= k /\ forall v : 'cV[R]_m, sqf (K *m v) <= k ^+ 2 * sqf v.
(* the Frobenius norm *)
Definition frob m n (A : 'M[R]_(m, n)) : R := Num.sqrt (sqf A).
Definition dist s u (v : seq nat -> R) : R := Num.sqrt (dist2 s u v).
End Stream.
