(* Specification for C57: how many numbers a tensor stores, counted on the stored lists. *)
From mathcomp Require Import all_ssreflect all_algebra.
From Verif Require Import Py Nd Tensor.
Set Implicit Arguments. Unset Strict Implicit. Unset Printing Implicit Defensive.

Section SizeSpec.
Variable R : comRingType.

(* values and, for sparse tensors, coordinates *)
Fixpoint stored (X : tensor R) : nat :=
  match X with
  | Dense a => size (ndata a)
  | Sparse _ inds vals => size vals + sumn [seq size row | row <- inds]
  | TT cs | CP cs => sumn [seq size (ndata C) | C <- cs]
  | Tucker fs core => size (ndata core) + sumn [seq size (ndata U) | U <- fs]
  | TSum _ Xs => (fix go l := if l is x :: l' then stored x + go l' else 0) Xs
  end.

(* some (nested) summand is a CPTensor *)
Fixpoint has_cp (X : tensor R) : bool :=
  match X with
  | CP _ => true
  | TSum _ Xs => (fix go l := if l is x :: l' then has_cp x || go l' else false) Xs
  | _ => false
  end.

(* sum over the cores k of a train of r_(k-1) * n_k * r_k, with r_0 = r_d = 1 *)
Definition train_size (shape rank : seq nat) : nat :=
  \sum_(0 <= k < size shape) nth 0 (1 :: rank) k * nth 0 shape k * nth 0 (rcons rank 1) k.
End SizeSpec.
