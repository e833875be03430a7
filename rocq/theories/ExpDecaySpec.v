(* Specification of tt_exp_decay: the two unfoldings of a core, and which singular values count *)
From Coq Require Import String Ascii.
From mathcomp Require Import all_ssreflect all_algebra.
From Verif Require Import Py Nd SvSpec.
Set Implicit Arguments. Unset Strict Implicit. Unset Printing Implicit Defensive.
Import GRing.Theory Num.Theory.
Local Open Scope ring_scope.

Section Spec.
Variable R : rcfType.
(* the unfoldings of a core of shape (r1, n, r2), of sizes (r1 n) x r2 and r1 x (n r2) *)
Definition left_unf r1 n r2 (C : nd R) : 'M[R]_(r1 * n, r2) := \matrix_(p, l) get C [:: p %/ n; p %% n; nat_of_ord l]%N.
Definition right_unf r1 n r2 (C : nd R) : 'M[R]_(r1, n * r2) := \matrix_(a, q) get C [:: nat_of_ord a; q %/ r2; q %% r2]%N.
(* the number of singular values of each *)
Definition left_min r1 n r2 : nat := minn (r1 * n) r2.
Definition right_min r1 n r2 : nat := minn r1 (n * r2).
(* s are the singular values of the unfolding that has more of them (the right one if equal) *)
Definition main_svals (C : nd R) (s : seq R) : Prop :=
  let r1 := dim C 0 in let n := dim C 1 in let r2 := dim C 2 in
  if (right_min r1 n r2 < left_min r1 n r2)%N then singular_values (left_unf r1 n r2 C) s
  else singular_values (right_unf r1 n r2 C) s.
Definition main_min (C : nd R) : nat := maxn (left_min (dim C 0) (dim C 1) (dim C 2)) (right_min (dim C 0) (dim C 1) (dim C 2)).

(* np.logspace(0, min_svdval, n) with min_svdval <= 0: n positive numbers from 1 downwards *)
Definition logspace_contract (logspace : nat -> seq R) : Prop := forall n,
  [/\ size (logspace n) = n, (0 < n)%N -> nth 0 (logspace n) 0 = 1,
      forall t, (t < n)%N -> 0 < nth 0 (logspace n) t &
      forall t u, (t <= u < n)%N -> nth 0 (logspace n) u <= nth 0 (logspace n) t].
End Spec.
