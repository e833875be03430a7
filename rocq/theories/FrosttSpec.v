(* Specification for C69: the text of a sparse tensor in the FROSTT format, independent of the code *)
From Coq Require Import String Ascii.
From mathcomp Require Import all_ssreflect all_algebra.
From Verif Require Import Py Nd Tensor Spec Frostt.
Set Implicit Arguments. Unset Strict Implicit. Unset Printing Implicit Defensive.
Local Open Scope string_scope.

(* no space and no newline in s *)
Fixpoint plain (s : string) : bool :=
  match s with EmptyString => true | String c r => [&& ~~ Ascii.eqb c " ", ~~ Ascii.eqb c newline & plain r] end.

Section FS.
Variable R : comRingType.
(* how the file writes an index and an entry *)
Variable itxt : nat -> string.
Variable ftxt : R -> string.

(* one line: the indices, counted from 1, and the entry, separated by single spaces *)
Definition line_of (row : seq nat) (v : R) : string :=
  foldr (fun n s => itxt n.+1 ++ " " ++ s) (ftxt v ++ String newline "") row.
(* one line per stored entry *)
Definition text_of (inds : seq (seq nat)) (vals : seq R) : string :=
  foldr String.append "" [seq line_of (column inds k) (nth 0%R vals k) | k <- iota 0 (size vals)].

(* int() and float() read these texts back *)
Definition reads_back (int_of : string -> res int) (float_of : string -> res R) : Prop :=
  (forall n, plain (itxt n.+1) /\ int_of (itxt n.+1) = Ok (Posz n.+1)) /\
  (forall x, plain (ftxt x) /\ float_of (ftxt x ++ String newline "") = Ok x).
End FS.

(* the tensor with these coordinates (row by row) and entries *)
Definition saved_of (R : comRingType) (s : seq nat) (inds : seq (seq nat)) (vals : seq R) : saved R :=
  Saved s [seq [seq Posz n | n <- row] | row <- inds] vals.

(* gz is a compressed file with this text: cut off, it is not readable, or empty *)
Definition gz_file (byte : Type) (gunzip : seq byte -> res string) (gz : seq byte) (text : string) : Prop :=
  gunzip gz = Ok text /\
  forall k, (k < size gz)%N -> gunzip (take k gz) = Ok "" \/ exists x, gunzip (take k gz) = Err x.
(* np.load reads back what np.savez_compressed wrote, and not less *)
Definition npz_contract (R : comRingType) (byte : Type) (savez : saved R -> seq byte) (load : seq byte -> res (saved R)) : Prop :=
  forall t, load (savez t) = Ok t /\ forall k, (k < size (savez t))%N -> exists x, load (take k (savez t)) = Err x.
