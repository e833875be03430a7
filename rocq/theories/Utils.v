(* Model of tt_sketch/utils.py (definitions only). *)
From Coq Require Import String Ascii.
From mathcomp Require Import all_ssreflect all_algebra.
From Verif Require Import Py Nd.
Set Implicit Arguments. Unset Strict Implicit. Unset Printing Implicit Defensive.
Import GRing.Theory.

(* ------------------------------------------------------------------ *)
(* trim_ranks, utils.py:121-152                                        *)

(* utils.py:135-137, body of the first loop at position i:
   min(r, prod(dims[:i+1]), prod(dims[i+1:])) *)
Definition trim_init (dims ranks : seq nat) : seq nat :=
  [seq minn (nth 0 ranks i)
            (minn (prods (take i.+1 dims)) (prods (drop i.+1 dims)))
  | i <- iota 0 (size ranks)].

(* utils.py:143-148, body of the inner loop at position i with mode size d.
   State: the in-place updated list (with the 1s at both ends) and [changed].
   [set_nth] and [nth] are total; the indices i, i+1 are in range whenever
   len(ranks) = len(dims) - 1, which process_tt_rank checks (utils.py:168). *)
Definition trim_step (st : seq nat * bool) (id : nat * nat) : seq nat * bool :=
  let: (r, ch) := st in
  let: (i, d) := id in
  let: (r, ch) :=
    if nth 0 r i.+1 > nth 0 r i * d
    then (set_nth 0 r i.+1 (nth 0 r i * d), true) else (r, ch) in
  if nth 0 r i > d * nth 0 r i.+1
  then (set_nth 0 r i (d * nth 0 r i.+1), true) else (r, ch).

(* utils.py:141-148, one sweep (one iteration of the outer loop) *)
Definition trim_sweep (dims r : seq nat) : seq nat * bool :=
  foldl trim_step (r, false) (zip (iota 0 (size dims)) dims).

(* utils.py:140-150, [for _ in range(n)] with the early [break] *)
Fixpoint trim_loop (n : nat) (dims r : seq nat) : seq nat :=
  match n with
  | 0 => r
  | n'.+1 => let: (r', changed) := trim_sweep dims r in
             if changed then trim_loop n' dims r' else r'
  end.

(* utils.py:121-152.  The slice [1:-1] at the end removes the added 1s. *)
Definition trim_ranks (dims ranks : seq nat) : seq nat :=
  let r := 1 :: trim_init dims ranks ++ [:: 1] in
  let r' := trim_loop 100 dims r in
  behead (take (size r').-1 r').

(* ------------------------------------------------------------------ *)
(* process_tt_rank, utils.py:155-175                                   *)

(* A TTRank argument: an int or an iterable of ints (utils.py:17). *)
Inductive ttrank := RInt (r : nat) | RTuple (rs : seq nat).

Definition process_tt_rank (rank : ttrank) (shape : seq nat) (trim : bool)
  : res (seq nat) :=
  let rank_tuple := match rank with
    | RTuple rs => rs
    | RInt r => nseq (size shape).-1 r   (* (rank,) * (len(shape) - 1) *)
    end in
  (* len(rank_tuple) != len(shape) - 1, with shape () giving -1 *)
  if (size shape == 0) || (size rank_tuple != (size shape).-1) then Err ValueError
  else Ok (if trim then trim_ranks shape rank_tuple else rank_tuple).

(* ------------------------------------------------------------------ *)
Section Mat.
Variable R : ringType.

(* matricize, utils.py:63-83; mode given as a list of axes (an int m is [:: m]) *)
Definition matricize (A : nd R) (mode : seq nat) (mat_shape : bool) : res (nd R) :=
  let perm := mode ++ [seq i <- iota 0 (ndim A) | i \notin mode] in
  do A' <- transpose A perm;
  let right_shape := [:: prods (drop (size mode) (nshape A'))] in
  let left_shape := if mat_shape
                    then [:: prods (take (size mode) (nshape A'))]
                    else take (size mode) (nshape A') in
  reshape A' (left_shape ++ right_shape).

(* dematricize, utils.py:86-95 *)
Definition dematricize (A : nd R) (mode : nat) (shape : seq nat) : res (nd R) :=
  let current_shape :=
    dim A 0 :: [seq nth 0 shape i | i <- iota 0 (size shape) & i != mode] in
  do A' <- reshape A current_shape;
  let perm := iota 1 (size shape).-1 in
  let perm := take mode perm ++ [:: 0] ++ drop mode perm in
  transpose A' perm.
End Mat.
