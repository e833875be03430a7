(* Which tensor of tensor.py an instance of Tensor stands for: each sketch is replaced by the
   tensor train its to_tt() gives. *)
From Coq Require Import String Ascii NArith.
From mathcomp Require Import all_ssreflect all_algebra.
From Verif Require Import Py Nd Utils Tensor Spec Sketch Mixed.
Set Implicit Arguments. Unset Strict Implicit. Unset Printing Implicit Defensive.

Section S.
Variable R : rcfType.
Variable lstsq : nd R -> nd R -> res (nd R).

Definition not_sum (T : tensor R) : bool := if T is TSum _ _ then false else true.

Fixpoint stands_for (X : any R) (T : tensor R) : Prop :=
  match X with
  | ALeaf U => U = T /\ not_sum T
  | ASk st => exists2 cs, stt_to_tt lstsq st = Ok cs & stt_shape st = tshape (TT cs) /\ T = TT cs
  | ASum s Xs =>
      if T is TSum s' Ts then s = s' /\
        (fix all_stand l m := match l, m with
           | [::], [::] => True
           | x :: l', t :: m' => stands_for x t /\ all_stand l' m'
           | _, _ => False
           end) Xs Ts
      else False
  end.

(* how deep sums are nested in sums *)
Fixpoint nesting (X : any R) : nat :=
  if X is ASum _ Xs then (foldr maxn 0%N (map nesting Xs)).+1 else 0%N.

(* a sketch, or a sum with a sketch in it *)
Fixpoint has_sketch (X : any R) : bool :=
  match X with
  | ALeaf _ => false
  | ASk _ => true
  | ASum _ Xs => (fix some l := if l is x :: l' then has_sketch x || some l' else false) Xs
  end.
End S.

(* a tensor of tensor.py as an instance of Tensor *)
Fixpoint whole (R : Type) (T : tensor R) : any R :=
  match T with TSum s Xs => ASum s (map (@whole R) Xs) | _ => ALeaf T end.
