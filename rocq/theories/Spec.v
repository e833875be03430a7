(* The specification: what a tensor in each storage format *means*, entry by entry,
   written with big sums and products only.  It uses no function of the model other
   than reading an entry of an array ([get]), its sizes ([dim], [nshape]) and the
   data type [tensor] itself. *)
From Coq Require Import String Ascii.
From mathcomp Require Import all_ssreflect all_algebra.
From Verif Require Import Py Nd Tensor.
Set Implicit Arguments. Unset Strict Implicit. Unset Printing Implicit Defensive.
Import GRing.Theory.
Local Open Scope ring_scope.

Section Spec.
Variable R : comRingType.
Notation arr := (nd R).

(* sum over all multi-indices of an array of shape s *)
Fixpoint sum_idx (s : seq nat) (f : seq nat -> R) : R :=
  match s with
  | [::] => f [::]
  | n :: s' => \sum_(0 <= k < n) sum_idx s' (fun i => f (k :: i))
  end.

(* Entry (a, b) of the matrix product C1[:, i1, :] C2[:, i2, :] ... of core slices *)
Fixpoint chain (cs : seq arr) (i : seq nat) (a b : nat) : R :=
  match cs, i with
  | C :: cs', k :: i' => \sum_(0 <= l < dim C 2) get C [:: a; k; l] * chain cs' i' l b
  | _, _ => (a == b)%:R
  end.

(* The k-th coordinate column of a d x nnz index array *)
Definition column (inds : seq (seq nat)) (k : nat) : seq nat :=
  [seq nth 0%N row k | row <- inds].

(* The entry of the represented tensor at multi-index i *)
Fixpoint den (X : tensor R) (i : seq nat) : R :=
  match X with
  | Dense a => get a i
  | Sparse _ inds vals =>
      \sum_(0 <= k < size vals) (column inds k == i)%:R * nth 0 vals k
  | TT cs => chain cs i 0 0
  | CP cs =>
      \sum_(0 <= r < dim (head (Nd [::] [::]) cs) 1) \prod_(p <- zip cs i) get p.1 [:: p.2; r]
  | Tucker fs core =>
      sum_idx (nshape core) (fun j =>
        get core j * \prod_(p <- zip fs (zip j i)) get p.1 [:: p.2.1; p.2.2])
  | TSum _ Xs => (fix go l := if l is x :: l' then den x i + go l' else 0) Xs
  end.

(* ------------------------------------------------------------------ *)
(* Well-formedness: what the constructors' documentation asks for.     *)

(* consecutive three-dimensional cores whose ranks link a to b *)
Fixpoint links (a : nat) (cs : seq arr) (b : nat) : bool :=
  match cs with
  | [::] => a == b
  | C :: cs' =>
      [&& nwf C, nshape C == [:: a; dim C 1; dim C 2] & links (dim C 2) cs' b]
  end.

Definition wf_tt (cs : seq arr) : bool := ~~ nilp cs && links 1 cs 1.

Definition wf_cp (cs : seq arr) : bool :=
  ~~ nilp cs &&
  all (fun C => nwf C && (nshape C == [:: dim C 0; dim (head (Nd [::] [::]) cs) 1])) cs.

Definition wf_tucker (fs : seq arr) (core : arr) : bool :=
  [&& nwf core, nshape core == [seq dim U 0 | U <- fs] &
      all (fun U => nwf U && (nshape U == [:: dim U 0; dim U 1])) fs].

(* index rows of equal length, all coordinates in range *)
Definition wf_inds (s : seq nat) (inds : seq (seq nat)) (N : nat) : bool :=
  [&& size inds == size s, all (fun row => size row == N) inds &
      all (fun k => inb s (column inds k)) (iota 0 N)].

Definition norep (inds : seq (seq nat)) (N : nat) : bool :=
  uniq [seq column inds k | k <- iota 0 N].

(* A valid tensor; sums are non-empty and all summands have the same shape.
   [nr]: whether sparse coordinates must be distinct. *)
Fixpoint wf_gen (nr : bool) (X : tensor R) : bool :=
  match X with
  | Dense a => nwf a
  | Sparse s inds vals => wf_inds s inds (size vals) && (nr ==> norep inds (size vals))
  | TT cs => wf_tt cs
  | CP cs => wf_cp cs
  | Tucker fs core => wf_tucker fs core
  | TSum s Xs => ~~ nilp Xs &&
      (fix go l := if l is x :: l' then [&& wf_gen nr x, tshape x == s & go l'] else true) Xs
  end.
Definition wf := wf_gen true.          (* no sparse coordinate is repeated *)
Definition wf_rep := wf_gen false.     (* repeated coordinates allowed: values add up *)

(* "a is the array with the entries of X": the meaning of X.to_numpy() *)
Definition represents (a : arr) (X : tensor R) : Prop :=
  [/\ nwf a, nshape a = tshape X & forall i, inb (tshape X) i -> get a i = den X i].

(* equality of the represented tensors *)
Definition same_tensor (X Y : tensor R) : Prop :=
  tshape X = tshape Y /\ forall i, inb (tshape X) i -> den X i = den Y i.

(* Frobenius inner product of the represented tensors *)
Definition inner (X Y : tensor R) : R := sum_idx (tshape X) (fun i => den X i * den Y i).

End Spec.
