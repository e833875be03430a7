(* Concrete tensors used by the non-vacuity examples beside the property theorems. *)
From mathcomp Require Import all_ssreflect all_algebra.
From Verif Require Import Py Nd Tensor.
Set Implicit Arguments. Unset Strict Implicit. Unset Printing Implicit Defensive.
Local Open Scope ring_scope.

Definition Z := [comRingType of int].
Definition arrZ (s : seq nat) (l : seq int) : nd Z := Nd s l.

(* a 2 x 3 x 2 tensor train of ranks (2, 1) *)
Definition ex_tt : seq (nd Z) :=
  [:: arrZ [:: 1; 2; 2]%N [:: 1; 2; 3; -1];
      arrZ [:: 2; 3; 1]%N [:: 1; 0; 2; -1; 1; 5];
      arrZ [:: 1; 2; 1]%N [:: 2; 7] ].
(* another one of the same shape, ranks (1, 2) *)
Definition ex_tt2 : seq (nd Z) :=
  [:: arrZ [:: 1; 2; 1]%N [:: 4; -2];
      arrZ [:: 1; 3; 2]%N [:: 1; 2; 3; 4; 5; 6];
      arrZ [:: 2; 2; 1]%N [:: 0; 1; 1; -3] ].
Definition ex_cp : seq (nd Z) :=
  [:: arrZ [:: 2; 2]%N [:: 1; 2; 3; 4];
      arrZ [:: 3; 2]%N [:: 1; 0; 0; 1; 2; 2];
      arrZ [:: 2; 2]%N [:: 5; -1; 1; 1] ].
Definition ex_tucker_fs : seq (nd Z) :=
  [:: arrZ [:: 1; 2]%N [:: 3; 4];
      arrZ [:: 2; 3]%N [:: 1; 0; 2; -1; 1; 1];
      arrZ [:: 2; 2]%N [:: 1; 1; 0; 2] ].
Definition ex_tucker_core : nd Z := arrZ [:: 1; 2; 2]%N [:: 1; -2; 3; 5].
Definition ex_inds : seq (seq nat) := [:: [:: 0; 1; 1]; [:: 2; 0; 2]; [:: 1; 1; 0]]%N.
Definition ex_vals : seq int := [:: 7; -3; 11].
Definition ex_sparse : tensor Z := Sparse [:: 2; 3; 2]%N ex_inds (ex_vals : seq Z).
Definition ex_dense : nd Z :=
  arrZ [:: 2; 3; 2]%N [:: 1; 2; 3; 4; 5; 6; 7; 8; 9; 10; 11; -12].
(* a nested sum of all formats *)
Definition ex_sum : tensor Z :=
  TSum [:: 2; 3; 2]%N
    [:: TT ex_tt; CP ex_cp;
        TSum [:: 2; 3; 2]%N [:: ex_sparse; Tucker ex_tucker_fs ex_tucker_core];
        Dense ex_dense].
