(* Properties C09, C11, C16, C50, C51: dot, gather, split, partial_dense, zero.
   Only statements, closed by [exact]; proofs are in GatherThy.v and DotThy.v. *)
From Coq Require Import String Ascii.
From mathcomp Require Import all_ssreflect all_algebra.
From Verif Require Import Py Nd Utils Tensor Spec TensorThy2 TensorThy4 GatherThy DotThy Ex.
Set Implicit Arguments. Unset Strict Implicit. Unset Printing Implicit Defensive.
Import GRing.Theory.
Local Open Scope ring_scope.

(* ---- C09: X.dot(Y) is sum_i X[i] * Y[i] for every pair of formats.  [n] bounds the
   depth of Python's call stack; any n above the nesting depth of the sums plus 2
   suffices, so the mutual recursion between the dot methods terminates. ---- *)
Theorem C09_dot (R : comRingType) (X Y : tensor R) (n : nat) :
  wf X -> wf Y -> tshape X = tshape Y -> (0 < size (tshape X))%N ->
  (depth X + depth Y + 2 < n)%N ->
  exists a b, [/\ to_numpy X = Ok a, to_numpy Y = Ok b &
    dot n X Y false = Some (Ok (sum_idx (tshape X) (fun i => get a i * get b i)))].
Proof. exact: obs_dot. Qed.
Print Assumptions C09_dot.
Theorem C09_dot_sym (R : comRingType) (X Y : tensor R) (n : nat) :
  wf X -> wf Y -> tshape X = tshape Y -> (0 < size (tshape X))%N ->
  (depth X + depth Y + 2 < n)%N -> dot n X Y false = dot n Y X false.
Proof. exact: obs_dot_sym. Qed.
Print Assumptions C09_dot_sym.
(* The repeat-free condition is needed: with a repeated coordinate, dot disagrees with
   the array product, and is not even symmetric. *)
Theorem C09_repeats_refuted : exists (X Y : tensor Z) u v,
  [/\ wf_rep X, wf Y, tshape X = tshape Y,
      dot 5 X Y false = Some (Ok u) & dot 5 Y X false = Some (Ok v)] /\ u <> v.
Proof.
exists (Sparse [:: 2]%N [:: [:: 0; 0] ]%N [:: (1 : int); 1]),
  (Sparse [:: 2]%N [:: [:: 0; 1] ]%N [:: (1 : int); 0]); do 2 eexists.
by split; [split; [..|vm_compute; reflexivity|vm_compute; reflexivity]|].
Qed.
Print Assumptions C09_repeats_refuted.
Example C09_nonvacuous :
  [/\ wf ex_sum, wf (CP ex_cp), tshape ex_sum = tshape (CP ex_cp), depth ex_sum = 2%N &
      dot 5 ex_sum (CP ex_cp) false = Some (Ok (3464 : int))].
Proof. by vm_compute. Qed.

(* ---- C11: gather(idx)[k] is the entry of to_numpy() at the k-th coordinate ---- *)
Theorem C11_gather (R : comRingType) (X : tensor R) (idx : seq (seq nat)) (N : nat) :
  wf X -> wf_inds (tshape X) idx N -> (0 < size (tshape X))%N ->
  match X with TT _ | CP _ | Sparse _ _ _ => true | _ => false end ->
  exists a r, [/\ to_numpy X = Ok a, gather X idx = Ok r, size r = N &
    forall k, (k < N)%N -> nth 0 r k = get a (column idx k)].
Proof. exact: obs_gather. Qed.
Print Assumptions C11_gather.
Example C11_nonvacuous : wf_inds (tshape (TT ex_tt)) [:: [:: 0; 1]; [:: 2; 0]; [:: 1; 1] ]%N 2 /\
  gather (TT ex_tt) [:: [:: 0; 1]; [:: 2; 0]; [:: 1; 1] ]%N = Ok [:: 84; 28 : int].
Proof. by vm_compute. Qed.

(* ---- C16: split(n) has n summands whose coordinate and value lists concatenate to
   the original ones, and denotes the same tensor ---- *)
Theorem C16_split (R : comRingType) s inds (vals : seq R) n :
  wf (Sparse s inds vals) -> (0 < n)%N ->
  exists2 Y, sparse_split s inds vals n = Ok Y &
  [/\ wf Y, to_numpy Y = to_numpy (Sparse s inds vals) &
   exists pieces : seq (seq (seq nat) * seq R),
    [/\ Y = TSum s [seq Sparse s p.1 p.2 | p <- pieces], size pieces = n,
        flatten [seq p.2 | p <- pieces] = vals &
        forall r, (r < size inds)%N ->
          flatten [seq nth [::] p.1 r | p <- pieces] = nth [::] inds r]].
Proof. exact: obs_split. Qed.
Print Assumptions C16_split.

(* ---- C50: partial_dense: the interface matrices.  Row ravel(i1..ik) (column, for
   "rl") of the k-th matrix is the partial product of core slices. ---- *)
Theorem C50_partial_dense_lr (R : comRingType) (cs : seq (nd R)) :
  wf_tt cs -> all (fun C => 0 < dim C 2)%N cs ->
  exists2 ps, partial_dense_lr cs = Ok ps &
   size ps = maxn 1 (size cs).-1 /\
   forall k, (k < size ps)%N ->
     let P := nth (Nd [::] [::]) ps k in
     let pre := take k.+1 cs in
     let sh := [seq dim C 1 | C <- pre] in
     exists r, [/\ links 1 pre r, nwf P, nshape P = [:: prods sh; r] &
       forall i z, inb sh i -> (z < r)%N -> get P [:: ravel sh i; z] = chain pre i 0 z].
Proof. exact: partial_dense_lrE. Qed.
Print Assumptions C50_partial_dense_lr.
Theorem C50_partial_dense_rl (R : comRingType) (cs : seq (nd R)) :
  wf_tt cs -> all (fun C => 0 < dim C 0)%N cs ->
  exists2 ps, partial_dense_rl cs = Ok ps &
   size ps = maxn 1 (size cs).-1 /\
   forall k, (k < size ps)%N ->
     let P := nth (Nd [::] [::]) ps k in
     let suf := drop (size cs - k.+1) cs in
     let sh := [seq dim C 1 | C <- suf] in
     exists r, [/\ links r suf 1, nwf P, nshape P = [:: r; prods sh] &
       forall i z, inb sh i -> (z < r)%N -> get P [:: z; ravel sh i] = chain suf i z 0].
Proof. exact: partial_dense_rlE. Qed.
Print Assumptions C50_partial_dense_rl.
Example C50_nonvacuous : wf_tt ex_tt /\ all (fun C => 0 < dim C 2)%N ex_tt /\
  all (fun C => 0 < dim C 0)%N ex_tt.
Proof. by vm_compute. Qed.

(* ---- C51 (zero): shape, rank and value ---- *)
Theorem C51_zero (R : comRingType) shape rank rk :
  process_tt_rank rank shape false = Ok rk ->
  exists2 cs, tt_zero R shape rank = Ok cs &
  [/\ wf_tt cs, tshape (TT cs) = shape, tt_rank cs = rk &
      exists2 a, to_numpy (TT cs) = Ok a & forall i, inb shape i -> get a i = 0].
Proof. exact: obs_zero. Qed.
Print Assumptions C51_zero.
Example C51_nonvacuous : process_tt_rank (RInt 3) [:: 2; 5; 4]%N false = Ok [:: 3; 3]%N.
Proof. by []. Qed.
