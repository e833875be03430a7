(* Specification: the singular values of a matrix *)
From mathcomp Require Import all_ssreflect all_algebra.
Set Implicit Arguments. Unset Strict Implicit. Unset Printing Implicit Defensive.
Import GRing.Theory Num.Theory.
Local Open Scope ring_scope.

Section SvSpec.
Variable R : rcfType.
(* s is non-negative and non-increasing, and M = U diag(s) V with orthonormal columns of U and
   orthonormal rows of V *)
Definition singular_values m n (M : 'M[R]_(m, n)) (s : seq R) : Prop :=
  [/\ (forall t, (t < size s)%N -> 0 <= nth 0 s t),
      (forall t u, (t <= u < size s)%N -> nth 0 s u <= nth 0 s t) &
      exists (U : 'M[R]_(m, size s)) (V : 'M[R]_(size s, n)),
        [/\ U^T *m U = 1%:M, V *m V^T = 1%:M & M = U *m diag_mx (\row_t nth 0 s t) *m V]].
End SvSpec.
