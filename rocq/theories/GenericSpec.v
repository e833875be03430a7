(* Specification: a random number generator whose values are drawn independently. *)
From Coq Require Import NArith.
From mathcomp Require Import all_ssreflect all_algebra.
From Verif Require Import ProbSpec.
Set Implicit Arguments. Unset Strict Implicit. Unset Printing Implicit Defensive.
Import GRing.Theory Num.Theory.
Local Open Scope ring_scope.

Section GenericSpec.
Variable R : realFieldType.

(* the positions (seed word, thread, number of the value) at which values are drawn: one of the
   listed seed words, less than T threads and less than B values per thread *)
Definition position (words : seq N) (T B : nat) := ('I_(size words) * 'I_T * 'I_B)%type.

(* The generators default_rng(SeedSequence(s).spawn(T)[i]) return w (s, i, k) as their k-th
   value.  Values at positions outside the list are 0 (they are never used). *)
Definition gen_of (words : seq N) (T B : nat) (w : position words T B -> R) (s : N) (i k : nat) : R :=
  match insub (index s words), insub i, insub k with
  | Some a, Some b, Some c => w (a, b, c)
  | _, _, _ => 0
  end.

(* the values of one draw: vl maps the outcomes to numbers *)
Definition drawn_values (I V : finType) (vl : I -> V -> R) (w : {ffun I -> V}) : I -> R :=
  fun i => vl i (w i).
End GenericSpec.

(* the TT rank before mode mu: the given rank, and 1 at the left end *)
Definition rank_before (rk : seq nat) (mu : nat) : nat := if mu is m.+1 then nth 0%N rk m else 1%N.
(* the number of entries of core mu of a train of shape s and rank rk *)
Definition core_size (s rk : seq nat) (mu : nat) : nat :=
  (rank_before rk mu * nth 0 s mu * nth 0 (rk ++ [:: 1]) mu)%N.
