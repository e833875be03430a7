(* Specification vocabulary for the numerical part: orthonormality, positivity of sizes,
   and the contracts assumed of the LAPACK routines called by /repo. *)
From Coq Require Import String Ascii.
From mathcomp Require Import all_ssreflect all_algebra.
From Verif Require Import Py Nd Tensor Spec.
Set Implicit Arguments. Unset Strict Implicit. Unset Printing Implicit Defensive.
Import GRing.Theory Num.Theory.
Local Open Scope ring_scope.

(* The call returns a value satisfying P, or raises numpy.linalg.LinAlgError *)
Definition or_linalg (A : Type) (r : res A) (P : A -> Prop) : Prop :=
  match r with Ok a => P a | Err e => e = LinAlgError end.

Section LinSpec.
Variable R : rcfType.
Notation arr := (nd R).

(* an m x n matrix / a vector of length k *)
Definition is_mat (A : arr) (m n : nat) : Prop := nwf A /\ nshape A = [:: m; n].
Definition is_vec (A : arr) (k : nat) : Prop := nwf A /\ nshape A = [:: k].

(* orthonormal columns / rows of an m x n matrix *)
Definition ocols (Q : arr) (m n : nat) : Prop := forall b c, (b < n)%N -> (c < n)%N ->
  \sum_(0 <= i < m) get Q [:: i; b] * get Q [:: i; c] = (b == c)%:R.
Definition orows (V : arr) (m n : nat) : Prop := forall b c, (b < m)%N -> (c < m)%N ->
  \sum_(0 <= j < n) get V [:: b; j] * get V [:: c; j] = (b == c)%:R.

(* numpy.linalg.qr: A = Q R with orthonormal columns in Q *)
Definition qr_contract (qr : arr -> res (arr * arr)) : Prop :=
  forall A m n, is_mat A m n -> or_linalg (qr A) (fun QR =>
    [/\ is_mat QR.1 m (minn m n), is_mat QR.2 (minn m n) n, ocols QR.1 m (minn m n) &
        forall i j, (i < m)%N -> (j < n)%N ->
          get A [:: i; j] = \sum_(0 <= k < minn m n) get QR.1 [:: i; k] * get QR.2 [:: k; j]]).

(* singular values: non-negative, non-increasing, and A = U diag(S) Vt *)
Definition svd_values (A U Sv Vt : arr) (m n : nat) : Prop :=
  [/\ is_vec Sv (minn m n),
      (forall k, (k < minn m n)%N -> 0 <= get Sv [:: k]),
      (forall k l, (k <= l < minn m n)%N -> get Sv [:: l] <= get Sv [:: k]) &
      forall i j, (i < m)%N -> (j < n)%N -> get A [:: i; j] =
        \sum_(0 <= k < minn m n) get U [:: i; k] * get Sv [:: k] * get Vt [:: k; j]].

(* numpy.linalg.svd(A) *)
Definition svd_contract (svd : arr -> res (arr * arr * arr)) : Prop :=
  forall A m n, is_mat A m n -> or_linalg (svd A) (fun usv =>
    let: (U, Sv, Vt) := usv in
    [/\ is_mat U m m, is_mat Vt n n, ocols U m m, orows Vt n n & svd_values A U Sv Vt m n]).

(* numpy.linalg.svd(A, full_matrices=False) *)
Definition svd_red_contract (svd : arr -> res (arr * arr * arr)) : Prop :=
  forall A m n, is_mat A m n -> or_linalg (svd A) (fun usv =>
    let: (U, Sv, Vt) := usv in
    [/\ is_mat U m (minn m n), is_mat Vt (minn m n) n,
        ocols U m (minn m n), orows Vt (minn m n) n & svd_values A U Sv Vt m n]).

(* a core of shape (r1, n, r2) whose (r1*n, r2) unfolding has orthonormal columns *)
Definition left_orth (C : arr) : Prop := forall b c, (b < dim C 2)%N -> (c < dim C 2)%N ->
  \sum_(0 <= a < dim C 0) \sum_(0 <= k < dim C 1) get C [:: a; k; b] * get C [:: a; k; c]
  = (b == c)%:R.
(* ... whose (r1, n*r2) unfolding has orthonormal rows *)
Definition right_orth (C : arr) : Prop := forall b c, (b < dim C 0)%N -> (c < dim C 0)%N ->
  \sum_(0 <= k < dim C 1) \sum_(0 <= l < dim C 2) get C [:: b; k; l] * get C [:: c; k; l]
  = (b == c)%:R.
(* all cores but the last *)
Definition all_but_last (P : arr -> Prop) (cs : seq arr) : Prop :=
  forall k, (k.+1 < size cs)%N -> P (nth (Nd [::] [::]) cs k).
(* all cores but the first *)
Definition all_but_first (P : arr -> Prop) (cs : seq arr) : Prop :=
  forall k, (0 < k < size cs)%N -> P (nth (Nd [::] [::]) cs k).

(* every mode size and every rank is positive *)
Definition pos_tt (cs : seq arr) : bool :=
  all (fun C => (0 < dim C 1)%N && (0 < dim C 2)%N) cs.

(* squared Frobenius norm of the represented tensor, and squared distance *)
Definition sqnorm_of (X : tensor R) : R := sum_idx (tshape X) (fun i => den X i ^+ 2).
Definition sqdist (X Y : tensor R) : R := sum_idx (tshape X) (fun i => (den X i - den Y i) ^+ 2).
End LinSpec.
