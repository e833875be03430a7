(* Properties C01-C08 (tensor.py): what the formats mean, and their algebra.
   Only statements, closed by [exact]; proofs are in the *Thy files. *)
From Coq Require Import String Ascii.
From mathcomp Require Import all_ssreflect all_algebra.
From Verif Require Import Py Nd Utils Tensor Spec TensorThy TensorThy2 TensorThy3 TensorThy4 Ex.
Set Implicit Arguments. Unset Strict Implicit. Unset Printing Implicit Defensive.
Import GRing.Theory.
Local Open Scope ring_scope.

(* ---- C01: entry (i1,...,id) of tt.to_numpy() is C1[:,i1,:] ... Cd[:,id,:] ---- *)
Theorem C01_tt_to_numpy (R : comRingType) (cs : seq (nd R)) : wf_tt cs ->
  exists2 a, to_numpy (TT cs) = Ok a &
   [/\ nwf a, nshape a = [seq dim C 1 | C <- cs] &
       forall i, inb [seq dim C 1 | C <- cs] i -> get a i = chain cs i 0 0].
Proof. exact: tt_to_numpyE. Qed.
Print Assumptions C01_tt_to_numpy.
Example C01_nonvacuous : wf_tt ex_tt /\
  to_numpy (TT ex_tt) =
    Ok (arrZ [:: 2; 3; 2]%N [:: -2; -7; 4; 14; 24; 84; 8; 28; -2; -7; 2; 7]).
Proof. by vm_compute. Qed.

(* ---- C02 ---- *)
Theorem C02_cp_to_numpy (R : comRingType) (cs : seq (nd R)) : wf_cp cs ->
  exists2 a, to_numpy (CP cs) = Ok a &
   [/\ nwf a, nshape a = [seq dim C 0 | C <- cs] &
       forall i, inb [seq dim C 0 | C <- cs] i ->
         get a i = \sum_(0 <= r < dim (head (Nd [::] [::]) cs) 1)
                      \prod_(p <- zip cs i) get p.1 [:: p.2; r]].
Proof. exact: cp_to_numpyE. Qed.
Print Assumptions C02_cp_to_numpy.
Example C02_nonvacuous : wf_cp ex_cp /\
  to_numpy (CP ex_cp) =
    Ok (arrZ [:: 2; 3; 2]%N [:: 5; 1; -2; 2; 6; 6; 15; 3; -4; 4; 22; 14]).
Proof. by vm_compute. Qed.

(* ---- C03 ---- *)
Theorem C03_tucker_to_numpy (R : comRingType) (fs : seq (nd R)) (core : nd R) :
  wf_tucker fs core ->
  exists2 a, to_numpy (Tucker fs core) = Ok a &
   [/\ nwf a, nshape a = [seq dim U 1 | U <- fs] &
       forall i, inb [seq dim U 1 | U <- fs] i ->
         get a i = sum_idx (nshape core) (fun j =>
            get core j * \prod_(p <- zip fs (zip j i)) get p.1 [:: p.2.1; p.2.2])].
Proof. exact: tucker_to_numpyE. Qed.
Print Assumptions C03_tucker_to_numpy.
Example C03_nonvacuous : wf_tucker ex_tucker_fs ex_tucker_core. Proof. by vm_compute. Qed.

(* ---- C04: stored coordinates hold their values, everything else is 0;
        dense -> sparse -> dense is the identity ---- *)
Theorem C04_sparse_to_numpy (R : comRingType) s inds (vals : seq R) :
  wf (Sparse s inds vals) ->
  exists2 a, to_numpy (Sparse s inds vals) = Ok a &
  [/\ nshape a = s,
      forall k, (k < size vals)%N -> get a (column inds k) = nth 0 vals k &
      forall i, inb s i -> (forall k, (k < size vals)%N -> column inds k != i) -> get a i = 0].
Proof. exact: obs_sparse. Qed.
Print Assumptions C04_sparse_to_numpy.
Theorem C04_dense_sparse_roundtrip (R : comRingType) (a : nd R) :
  nwf a -> to_numpy (to_sparse a) = Ok a.
Proof. exact: obs_to_sparse. Qed.
Print Assumptions C04_dense_sparse_roundtrip.
Example C04_nonvacuous : wf ex_sparse /\ nwf ex_dense. Proof. by vm_compute. Qed.

(* ---- C05: .T reverses shape and indices in every format, .T.T is the identity ---- *)
Theorem C05_transpose (R : comRingType) (X : tensor R) : wf X -> exists Y a b,
  [/\ tT X = Ok Y, wf Y, to_numpy X = Ok a & to_numpy Y = Ok b] /\
  [/\ tshape Y = rev (tshape X), nshape a = tshape X, nshape b = rev (nshape a) &
      forall i, inb (nshape a) i -> get b (rev i) = get a i].
Proof. exact: obs_T. Qed.
Print Assumptions C05_transpose.
Theorem C05_transpose_involutive (R : comRingType) (X : tensor R) : wf X ->
  exists Y Z, [/\ tT X = Ok Y, tT Y = Ok Z & to_numpy Z = to_numpy X].
Proof. exact: obs_TT. Qed.
Print Assumptions C05_transpose_involutive.
Example C05_nonvacuous : wf ex_sum. Proof. by vm_compute. Qed.

(* ---- C06: X * c and -X act entrywise in every format ---- *)
Theorem C06_scalar_mul (R : comRingType) (X : tensor R) (c : R) : wf X -> exists Y a b,
  [/\ tmul X c = Ok Y, wf Y, to_numpy X = Ok a & to_numpy Y = Ok b] /\
  [/\ tshape Y = tshape X, nshape b = nshape a &
      forall i, inb (nshape a) i -> get b i = c * get a i].
Proof. exact: obs_mul. Qed.
Print Assumptions C06_scalar_mul.
(* a sum times a list of numbers, one for each summand *)
Theorem C06_list (R : comRingType) s (Xs : seq (tensor R)) (cs : seq R) : wf (TSum s Xs) ->
  if size Xs == size cs then exists Z c arrs,
    [/\ sum_mul_list Xs cs = Ok Z, wf Z, tshape Z = s, to_numpy Z = Ok c & mapM (@to_numpy R) Xs = Ok arrs] /\
    forall i, inb s i -> get c i = \sum_(p <- zip cs arrs) p.1 * get p.2 i
  else sum_mul_list Xs cs = Err ValueError.
Proof. exact: obs_mul_list. Qed.
Print Assumptions C06_list.
Theorem C06_neg (R : comRingType) (X : tensor R) : wf X -> exists Y a b,
  [/\ tneg X = Ok Y, wf Y, to_numpy X = Ok a & to_numpy Y = Ok b] /\
  [/\ tshape Y = tshape X, nshape b = nshape a &
      forall i, inb (nshape a) i -> get b i = - get a i].
Proof. exact: obs_neg. Qed.
Print Assumptions C06_neg.

(* ---- C07: X + Y, X - Y, X += Y in any formats ---- *)
Theorem C07_add (R : comRingType) (X Y : tensor R) :
  wf X -> wf Y -> tshape X = tshape Y -> exists Z a b c,
  [/\ tadd X Y = Ok Z, wf Z, to_numpy X = Ok a, to_numpy Y = Ok b & to_numpy Z = Ok c] /\
  [/\ tshape Z = tshape X, nshape a = tshape X, nshape c = tshape X &
      forall i, inb (tshape X) i -> get c i = get a i + get b i].
Proof. exact: obs_add. Qed.
Print Assumptions C07_add.
Theorem C07_sub (R : comRingType) (X Y : tensor R) :
  wf X -> wf Y -> tshape X = tshape Y -> exists Z a b c,
  [/\ tsub X Y = Ok Z, wf Z, to_numpy X = Ok a, to_numpy Y = Ok b & to_numpy Z = Ok c] /\
  [/\ tshape Z = tshape X, nshape a = tshape X, nshape c = tshape X &
      forall i, inb (tshape X) i -> get c i = get a i - get b i].
Proof. exact: obs_sub. Qed.
Print Assumptions C07_sub.
Theorem C07_add_flat (R : comRingType) (X Y : tensor R) :
  wf X -> wf Y -> tshape X = tshape Y ->
  tadd X Y = Ok (TSum (tshape X) ((if X is TSum _ l then l else [:: X]) ++
                                  (if Y is TSum _ l then l else [:: Y]))).
Proof. exact: flat_add. Qed.
Print Assumptions C07_add_flat.
Theorem C07_iadd (R : comRingType) (X Y : tensor R) :
  wf X -> wf Y -> tshape X = tshape Y -> tiadd X Y = tadd X Y.
Proof. exact: tiaddE. Qed.
Print Assumptions C07_iadd.
Example C07_nonvacuous : wf ex_sum /\ wf (CP ex_cp) /\ tshape ex_sum = tshape (CP ex_cp).
Proof. by vm_compute. Qed.

(* ---- C08: TensorTrain.add ---- *)
Theorem C08_tt_add (R : comRingType) (cs1 cs2 : seq (nd R)) :
  wf_tt cs1 -> wf_tt cs2 -> (2 <= size cs1)%N ->
  tshape (TT cs1) = tshape (TT cs2) ->
  exists cs a b c,
  [/\ tt_add cs1 cs2 = Ok cs, wf_tt cs, to_numpy (TT cs1) = Ok a, to_numpy (TT cs2) = Ok b
    & to_numpy (TT cs) = Ok c] /\
  [/\ tshape (TT cs) = tshape (TT cs1),
      tt_rank cs = [seq (p.1 + p.2)%N | p <- zip (tt_rank cs1) (tt_rank cs2)] &
      forall i, inb (tshape (TT cs1)) i -> get c i = get a i + get b i].
Proof. exact: obs_tt_add. Qed.
Print Assumptions C08_tt_add.
Example C08_nonvacuous :
  [/\ wf_tt ex_tt, wf_tt ex_tt2, (2 <= size ex_tt)%N & tshape (TT ex_tt) = tshape (TT ex_tt2)].
Proof. by vm_compute. Qed.
(* with one mode, add returns a two-mode train: the claim is false there *)
Theorem C08_single_mode_refuted : exists cs1 cs2 cs : seq (nd Z),
  [/\ wf_tt cs1, wf_tt cs2, tshape (TT cs1) = tshape (TT cs2), tt_add cs1 cs2 = Ok cs &
      tshape (TT cs) <> tshape (TT cs1)].
Proof.
exists [:: arrZ [:: 1; 2; 1]%N [:: 1; 2] ], [:: arrZ [:: 1; 2; 1]%N [:: 5; 6] ].
by eexists; split; [vm_compute|vm_compute|vm_compute|vm_compute; reflexivity|vm_compute].
Qed.
Print Assumptions C08_single_mode_refuted.
