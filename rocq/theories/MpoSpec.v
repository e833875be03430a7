(* Specification of matrix product operators, independent of the code. *)
From mathcomp Require Import all_ssreflect all_algebra.
From Verif Require Import Py Nd.
Set Implicit Arguments. Unset Strict Implicit. Unset Printing Implicit Defensive.
Import GRing.Theory.
Local Open Scope ring_scope.

Section MpoSpec.
Variable R : comRingType.
Notation arr := (nd R).
(* ---- specification: the matrix represented by an MPO ---- *)
(* sum over all bonds of the products of the entries M_mu[a, i_mu, j_mu, b] *)
Fixpoint mchain (ms : seq arr) (i j : seq nat) (a b : nat) : R :=
  match ms, i, j with
  | M :: ms', k :: i', l :: j' => \sum_(0 <= c < dim M 3) get M [:: a; k; l; c] * mchain ms' i' j' c b
  | _, _, _ => (a == b)%:R
  end.
(* row i, column j of the operator, i over the input and j over the output modes *)
Definition mden (ms : seq arr) (i j : seq nat) : R := mchain ms i j 0 0.
(* cores fit together *)
Fixpoint mlinks (a : nat) (ms : seq arr) (b : nat) : bool :=
  match ms with
  | [::] => a == b
  | M :: ms' => [&& nwf M, nshape M == [:: a; dim M 1; dim M 2; dim M 3] & mlinks (dim M 3) ms' b]
  end.
Definition wf_mpo (ms : seq arr) : bool := ~~ nilp ms && mlinks 1 ms 1.
(* i1, j1, i2, j2, ... *)
Fixpoint weave (i j : seq nat) : seq nat :=
  match i, j with k :: i', l :: j' => k :: l :: weave i' j' | _, _ => [::] end.
(* the pairs (i, j) as single indices i * out + j *)
Fixpoint merge_idx (o i j : seq nat) : seq nat :=
  match o, i, j with m :: o', k :: i', l :: j' => (k * m + l)%N :: merge_idx o' i' j' | _, _, _ => [::] end.
End MpoSpec.
