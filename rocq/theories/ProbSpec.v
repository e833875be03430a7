(* Specification for statements about random draws: finite product probability spaces. *)
From mathcomp Require Import all_ssreflect all_algebra.
Set Implicit Arguments. Unset Strict Implicit. Unset Printing Implicit Defensive.
Import GRing.Theory Num.Theory.
Local Open Scope ring_scope.

Section ProbSpec.
Variable R : realFieldType.
(* independent draws, one for every i : I; the i-th draw is t : V with probability wt i t *)
Variables (I V : finType) (wt : I -> V -> R).

(* wt i is a probability distribution for every i, and no outcome is likelier than p *)
Definition distributions (p : R) : Prop :=
  forall i, (forall t, 0 <= wt i t <= p) /\ \sum_t wt i t = 1.

(* the probability of the event B *)
Definition prob (B : pred {ffun I -> V}) : R := \sum_(w | B w) \prod_i wt i (w i).
End ProbSpec.
