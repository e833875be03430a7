(* Properties C17, C18: trim_ranks and process_tt_rank (utils.py:121-175). *)
From mathcomp Require Import all_ssreflect all_algebra.
From Verif Require Import Py Nd Utils TrimThy.
Set Implicit Arguments. Unset Strict Implicit. Unset Printing Implicit Defensive.

(* ---- C17 ---- *)
(* For at most 102 modes the result is the largest feasible vector below the request.
   [feasible] (TrimThy.v): with 1s added at both ends, adjacent ranks differ at most by
   a factor of the size of the mode between them.  [below]: componentwise <=. *)
Theorem C17_trim_greatest_feasible (dims ranks : seq nat) :
  all (fun n => 0 < n) dims -> all (fun n => 0 < n) ranks ->
  0 < size dims -> size ranks = (size dims).-1 -> size dims <= 102 ->
  [/\ feasible dims (trim_ranks dims ranks),
      below (trim_ranks dims ranks) ranks,
      (forall v, feasible dims v -> below v ranks -> below v (trim_ranks dims ranks)) &
      trim_ranks dims (trim_ranks dims ranks) = trim_ranks dims ranks].
Proof. exact: trim_main. Qed.
Print Assumptions C17_trim_greatest_feasible.
(* Without the bound on the number of modes: same length, positive, never above the
   request, never below a feasible vector. *)
Theorem C17_trim_bounds (dims ranks : seq nat) :
  all (fun n => 0 < n) dims -> all (fun n => 0 < n) ranks ->
  0 < size dims -> size ranks = (size dims).-1 ->
  [/\ size (trim_ranks dims ranks) = size ranks, all (fun n => 0 < n) (trim_ranks dims ranks),
      below (trim_ranks dims ranks) ranks &
      forall v, feasible dims v -> below v ranks -> below v (trim_ranks dims ranks)].
Proof. exact: trim_bounds. Qed.
Print Assumptions C17_trim_bounds.
(* With 103 modes the hard-coded 100 sweeps are not enough. *)
Theorem C17_103_modes_refuted : exists dims ranks : seq nat,
  [/\ all (fun n => 0 < n) dims, all (fun n => 0 < n) ranks,
      size dims = 103, size ranks = (size dims).-1 &
      ~ feasible dims (trim_ranks dims ranks)].
Proof.
exists (3 :: nseq 101 1 ++ [:: 3]), (rcons (nseq 101 3) 1); split=> //.
case=> _ /(_ 1 isT) [_]; by vm_compute.
Qed.
Print Assumptions C17_103_modes_refuted.
Example C17_nonvacuous : trim_ranks [:: 2; 3; 4; 2] [:: 9; 5; 7] = [:: 2; 5; 2].
Proof. by vm_compute. Qed.

(* ---- C18: process_tt_rank ---- *)
(* an int becomes the constant tuple of length d-1 *)
Theorem C18_int (r : nat) (shape : seq nat) : 0 < size shape ->
  exists2 rk, process_tt_rank (RInt r) shape false = Ok rk &
    size rk = (size shape).-1 /\ forall i, i < size rk -> nth 0 rk i = r.
Proof. exact: process_int. Qed.
Print Assumptions C18_int.
(* a tuple is kept if it has length d-1, and any other length is rejected *)
Theorem C18_tuple (rs shape : seq nat) (trim : bool) : 0 < size shape ->
  process_tt_rank (RTuple rs) shape trim =
    if size rs == (size shape).-1
    then Ok (if trim then trim_ranks shape rs else rs) else Err ValueError.
Proof. exact: process_tuple. Qed.
Print Assumptions C18_tuple.
(* with trimming, ints and tuples of the right length give the trimmed ranks, which have
   the right length, are positive and at most the request *)
Theorem C18_trim (rank : ttrank) (shape rk rk' : seq nat) :
  all (fun n => 0 < n) shape ->
  process_tt_rank rank shape false = Ok rk -> all (fun n => 0 < n) rk ->
  process_tt_rank rank shape true = Ok rk' ->
  [/\ rk' = trim_ranks shape rk, size rk' = (size shape).-1,
      all (fun n => 0 < n) rk' & below rk' rk].
Proof. exact: process_trim. Qed.
Print Assumptions C18_trim.
Example C18_nonvacuous : process_tt_rank (RInt 3) [:: 2; 5; 4] true = Ok [:: 2; 3].
Proof. by vm_compute. Qed.
