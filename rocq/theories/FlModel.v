(* Evaluation of tensors in floating-point arithmetic.  The files Nd.v and Tensor.v compute with
   exact scalars; here every product, every sum and every "+=" of the same lines of /repo is
   rounded.  NumPy does not fix the order in which einsum, matmul, np.sum and np.dot add their
   terms (it depends on the BLAS, the memory layout and the version), and may fuse a product with
   the addition that follows it: so the evaluation is a relation, "these operands can give this
   result".  A rounded operation is the exact one up to a relative error of at most u (the standard
   model of floating-point arithmetic: no overflow, no underflow); reshape, indexing, assignment
   and np.take do not round. *)
From Coq Require Import String Ascii.
From mathcomp Require Import all_ssreflect all_algebra.
From Verif Require Import Py Nd Tensor FlSpec.
Set Implicit Arguments. Unset Strict Implicit. Unset Printing Implicit Defensive.
Import GRing.Theory Num.Theory Order.TTheory.
Local Open Scope ring_scope.

Section Fl.
Variable R : realDomainType.
Variable u : R.
Notation arr := (nd R).
Notation tensor := (tensor R).

(* y can be the rounded value of x *)
Definition rnd (x y : R) : Prop := `|y - x| <= u * `|x|.

(* y can be the computed sum of the terms t j, j in r: any order, any grouping; a sum of no terms
   is 0 and a sum of one term is that term, without an operation *)
Inductive fl_sum (I : eqType) (t : I -> R) : seq I -> R -> Prop :=
| fl_none : fl_sum t [::] 0
| fl_one j : fl_sum t [:: j] (t j)
| fl_plus r s s' a b c : perm_eq r (s ++ s') -> ~~ nilp s -> ~~ nilp s' ->
    fl_sum t s a -> fl_sum t s' b -> rnd (a + b) c -> fl_sum t r c.

(* y can be the computed sum of the products f j * g j, j in r *)
Definition fl_dot (I : eqType) (r : seq I) (f g : I -> R) (y : R) : Prop :=
  exists2 t, (forall j, j \in r -> rnd (f j * g j) (t j)) & fl_sum t r y.

(* a loop over l whose body is the relation P *)
Fixpoint fl_fold (A S : Type) (P : S -> A -> S -> Prop) (s : S) (l : seq A) (s' : S) : Prop :=
  match l with
  | [::] => s' = s
  | x :: l' => exists2 s1, P s x s1 & fl_fold P s1 l' s'
  end.

(* all axes but the last *)
Definition lead (a : arr) : seq nat := take (ndim a).-1 (nshape a).

(* tensor.py:319, np.einsum("...j,jkl->...kl", A, C) *)
Definition fl_tt_step (A C B : arr) : Prop :=
  [/\ nwf B, nshape B = lead A ++ [:: dim C 1; dim C 2] &
   forall p k l, inb (lead A) p -> (k < dim C 1)%N -> (l < dim C 2)%N ->
     fl_dot (iota 0 (dim C 0)) (fun j => get A (rcons p j)) (fun j => get C [:: j; k; l])
       (get B (p ++ [:: k; l]))].

(* tensor.py:315-321 *)
Definition fl_tt_to_numpy (cs : seq arr) (a : arr) : Prop :=
  match cs with
  | [::] => False
  | C0 :: cs' => exists d0 d,
      [/\ reshape C0 (behead (nshape C0)) = Ok d0, fl_fold fl_tt_step d0 cs' d &
          reshape d (lead d) = Ok a]
  end.

(* tensor.py:699-701, np.einsum("...j,ij->...ij", A, C) *)
Definition fl_cp_step (A C B : arr) : Prop :=
  [/\ nwf B, nshape B = lead A ++ [:: dim C 0; dim C 1] &
   forall p i j, inb (lead A) p -> (i < dim C 0)%N -> (j < dim C 1)%N ->
     rnd (get A (rcons p j) * get C [:: i; j]) (get B (p ++ [:: i; j]))].

(* np.sum(A, axis=-1) *)
Definition fl_sum_last (A B : arr) : Prop :=
  [/\ nwf B, nshape B = lead A &
   forall p, inb (lead A) p -> fl_sum (fun j => get A (rcons p j)) (iota 0 (last 0%N (nshape A))) (get B p)].

(* tensor.py:696-703 *)
Definition fl_cp_to_numpy (cs : seq arr) (a : arr) : Prop :=
  match cs with
  | [::] => False
  | C0 :: cs' => exists2 d, fl_fold fl_cp_step C0 cs' d & fl_sum_last d a
  end.

(* tensor.py:776-779: core.reshape(left_dim, rank[i], right_dim), np.einsum("ijk,jl->ilk", ., U) *)
Definition fl_tucker_step (shape rank : seq nat) (A : arr) (iU : nat * arr) (B : arr) : Prop :=
  let: (i, U) := iU in
  let L := prods (take i shape) in let P := prods (drop i.+1 rank) in
  exists2 M, reshape A [:: L; nth 0%N rank i; P] = Ok M &
  [/\ nwf B, nshape B = [:: L; dim U 1; P] &
   forall a l b, (a < L)%N -> (l < dim U 1)%N -> (b < P)%N ->
     fl_dot (iota 0 (dim U 0)) (fun j => get M [:: a; j; b]) (fun j => get U [:: j; l]) (get B [:: a; l; b])].

(* tensor.py:771-780 *)
Definition fl_tucker_to_numpy (fs : seq arr) (core a : arr) : Prop :=
  let shape := [seq dim U 1 | U <- fs] in
  exists2 c, fl_fold (fl_tucker_step shape (tucker_rank fs)) core (zip (iota 0 (size fs)) fs) c &
    reshape c shape = Ok a.

(* dense_tensor += a (the arrays have the same shape) *)
Definition fl_iadd (acc a b : arr) : Prop :=
  [/\ nwf b, nshape b = nshape acc &
   forall i, inb (nshape acc) i -> rnd (get acc i + get a i) (get b i)].

(* Tensor.to_numpy: a can be the array X.to_numpy() returns *)
Fixpoint fl_to_numpy (X : tensor) (a : arr) : Prop :=
  match X with
  | Dense b => a = b                                               (* 171-172 *)
  | Sparse s inds vals => sparse_to_numpy s inds vals = Ok a       (* 236-239: assignments only *)
  | TT cs => fl_tt_to_numpy cs a
  | CP cs => fl_cp_to_numpy cs a
  | Tucker fs core => fl_tucker_to_numpy fs core a
  | TSum s Xs =>                                                   (* 633-637 *)
      (fix go acc l := match l with
        | [::] => a = acc
        | x :: l' => exists b acc', [/\ fl_to_numpy x b, fl_iadd acc b acc' & go acc' l']
        end) (zeros R s) Xs
  end.

(* X * c, tensor.py:177-178, 272-273, 507-512, 662-668, 740-743, 782-784: [tmul] with every product
   rounded.  Wider than the code: the rounding may sit in any of the arrays, while the code
   multiplies (and rounds) the numbers of one of them only. *)
Definition fl_tmul (X : tensor) (c : R) (Y : tensor) : Prop :=
  exists2 Z, tmul X c = Ok Z & perturbed u 1 Z Y.

(* tensor.py:432-439.  The loop over j fills row k of next_step with the row result[k] @ C[:, j, :]
   of the one j equal to idx[i][k]; here that is said at once. *)
Definition fl_gather_step (row : seq nat) (N : nat) (A C B : arr) : Prop :=
  [/\ nwf B, nshape B = [:: N; dim C 2] &
   forall k l, (k < N)%N -> (l < dim C 2)%N ->
     fl_dot (iota 0 (dim C 0)) (fun j => get A [:: k; j]) (fun j => get C [:: j; nth 0%N row k; l])
       (get B [:: k; l])].

(* TensorTrain.gather, tensor.py:414-440, for valid index rows *)
Definition fl_tt_gather (cs : seq arr) (idx : seq (seq nat)) (v : seq R) : Prop :=
  match cs, idx with
  | C0 :: cs', i0 :: idx' => exists c0 r0 r,
      [/\ reshape C0 (behead (nshape C0)) = Ok c0, take_ax 0 i0 c0 = Ok r0,
          fl_fold (fun A p => fl_gather_step p.2 (size i0) A p.1) r0 (zip cs' idx') r & v = ndata r]
  | _, _ => False
  end.

(* CPTensor.gather, tensor.py:726-732, for valid index rows: entry k of the result *)
Definition fl_cp_prod (k x : nat) (z : R) (p : arr * seq nat) (z' : R) : Prop :=
  rnd (z * get p.1 [:: nth 0%N p.2 k; x]) z'.
Definition fl_cp_gather (cs : seq arr) (idx : seq (seq nat)) (v : seq R) : Prop :=
  match cs, idx with
  | C0 :: cs', i0 :: idx' =>
      size v = size i0 /\ forall k, (k < size i0)%N -> exists2 z,
        (forall x, (x < dim C0 1)%N ->
           fl_fold (fl_cp_prod k x) (get C0 [:: nth 0%N i0 k; x]) (zip cs' idx') (z x)) &
        fl_sum z (iota 0 (dim C0 1)) (nth 0 v k)
  | _, _ => False
  end.

(* X.gather(idx) for the classes that have it, for valid index rows *)
Definition fl_gather (X : tensor) (idx : seq (seq nat)) (v : seq R) : Prop :=
  match X with
  | TT cs => fl_tt_gather cs idx v
  | CP cs => fl_cp_gather cs idx v
  | Sparse s inds vals => sparse_gather s inds vals idx = Ok v     (* 275-286: assignments only *)
  | _ => False
  end.

(* tensor.py:549, np.einsum("ijk,ljm->km"); the axes i and l have length 1 *)
Definition fl_dot_start (A B r : arr) : Prop :=
  [/\ nwf r, nshape r = [:: dim A 2; dim B 2] &
   forall k m, (k < dim A 2)%N -> (m < dim B 2)%N ->
     fl_dot (iota 0 (dim A 1)) (fun j => get A [:: 0%N; j; k]) (fun j => get B [:: 0%N; j; m])
       (get r [:: k; m])].

(* tensor.py:550-554, np.einsum("ij,ika,jkb->ab", r, A, B, optimize="optimal"): two contractions of
   two arrays each, in one of the three possible orders *)
Definition fl_dot_step (r : arr) (AB : arr * arr) (r' : arr) : Prop :=
  let: (A, B) := AB in
  let n1 := dim A 0 in let n2 := dim B 0 in let n := dim A 1 in
  [/\ nwf r', nshape r' = [:: dim A 2; dim B 2] &
   (exists2 t : nat -> nat -> nat -> R,
      forall j k a, (j < n2)%N -> (k < n)%N -> (a < dim A 2)%N ->
        fl_dot (iota 0 n1) (fun i => get r [:: i; j]) (fun i => get A [:: i; k; a]) (t j k a) &
      forall a b, (a < dim A 2)%N -> (b < dim B 2)%N ->
        fl_dot [seq (j, k) | j <- iota 0 n2, k <- iota 0 n]
          (fun p => t p.1 p.2 a) (fun p => get B [:: p.1; p.2; b]) (get r' [:: a; b])) \/
   (exists2 t : nat -> nat -> nat -> R,
      forall i k b, (i < n1)%N -> (k < n)%N -> (b < dim B 2)%N ->
        fl_dot (iota 0 n2) (fun j => get r [:: i; j]) (fun j => get B [:: j; k; b]) (t i k b) &
      forall a b, (a < dim A 2)%N -> (b < dim B 2)%N ->
        fl_dot [seq (i, k) | i <- iota 0 n1, k <- iota 0 n]
          (fun p => t p.1 p.2 b) (fun p => get A [:: p.1; p.2; a]) (get r' [:: a; b])) \/
   (exists2 t : nat -> nat -> nat -> nat -> R,
      forall i a j b, (i < n1)%N -> (a < dim A 2)%N -> (j < n2)%N -> (b < dim B 2)%N ->
        fl_dot (iota 0 n) (fun k => get A [:: i; k; a]) (fun k => get B [:: j; k; b]) (t i a j b) &
      forall a b, (a < dim A 2)%N -> (b < dim B 2)%N ->
        fl_dot [seq (i, j) | i <- iota 0 n1, j <- iota 0 n2]
          (fun p => get r [:: p.1; p.2]) (fun p => t p.1 a p.2 b) (get r' [:: a; b]))].

(* TensorTrain.dot of two trains, tensor.py:548-555 *)
Definition fl_tt_dot (cs1 cs2 : seq arr) (y : R) : Prop :=
  match cs1, cs2 with
  | A0 :: cs1', B0 :: cs2' => exists r0 r,
      [/\ fl_dot_start A0 B0 r0, fl_fold fl_dot_step r0 (zip cs1' cs2') r &
          fl_sum (fun k => nth 0 (ndata r) k) (iota 0 (size (ndata r))) y]
  | _, _ => False
  end.
End Fl.
