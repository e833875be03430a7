(* Model of tt_sketch/tensor.py (definitions only). *)
From Coq Require Import String Ascii.
From mathcomp Require Import all_ssreflect all_algebra.
From Verif Require Import Py Nd Utils.
Set Implicit Arguments. Unset Strict Implicit. Unset Printing Implicit Defensive.
Import GRing.Theory.
Local Open Scope ring_scope.

(* All concrete subclasses of Tensor defined in tensor.py.
   Simplifications: sparse coordinates are natural numbers (negative NumPy
   indices are not modelled); [indices] is the list of its rows
   [indices[0], ..., indices[d-1]]; [entries] is a flat list of values. *)
Inductive tensor (R : Type) : Type :=
  | Dense (data : nd R)                                                (* 140-146 *)
  | Sparse (shape : seq nat) (indices : seq (seq nat)) (entries : seq R) (* 185-198 *)
  | TT (cores : seq (nd R))                                            (* 294-308 *)
  | CP (cores : seq (nd R))                                            (* 674-686 *)
  | Tucker (factors : seq (nd R)) (core : nd R)                        (* 746-758 *)
  | TSum (shape : seq nat) (tensors : seq (tensor R)).                 (* 612-622 *)

Section Tensor.
Variable R : comRingType.
Notation arr := (nd R).
Notation tensor := (tensor R).
Implicit Types (X Y : tensor).

(* the [shape] attribute: tensor.py:145, 188, 307, 621, 686, 757 *)
Definition tshape X : seq nat :=
  match X with
  | Dense a => nshape a
  | Sparse s _ _ => s
  | TT cs => [seq dim C 1 | C <- cs]
  | CP cs => [seq dim C 0 | C <- cs]
  | Tucker fs _ => [seq dim U 1 | U <- fs]
  | TSum s _ => s
  end.

(* tensor.py:308, TensorTrain.rank *)
Definition tt_rank (cs : seq arr) : seq nat := [seq dim C 0 | C <- behead cs].
(* tensor.py:758 *)
Definition tucker_rank (fs : seq arr) : seq nat := [seq dim U 0 | U <- fs].

(* TensorSum(tensors), tensor.py:618-622: the shape of the first summand *)
Definition mk_sum (Xs : seq tensor) : res tensor :=
  match Xs with
  | [::] => Err IndexError
  | X :: _ => Ok (TSum (tshape X) Xs)
  end.

(* ------------------------------------------------------------------ *)
(* .T                                                                  *)

(* tensor.py:161-165 *)
Definition dense_T (a : arr) : res arr := transpose a (rev (iota 0 (ndim a))).
(* tensor.py:310-313 *)
Definition tt_T (cs : seq arr) : res (seq arr) :=
  mapM (fun C => transpose C [:: 2; 1; 0]%N) (rev cs).

Fixpoint tT X : res tensor :=
  match X with
  | Dense a => do b <- dense_T a; Ok (Dense b)
  | Sparse s inds vals => Ok (Sparse (rev s) (rev inds) vals)     (* 200-204 *)
  | TT cs => do cs' <- tt_T cs; Ok (TT cs')
  | CP cs => Ok (CP (rev cs))                                     (* 691-694 *)
  | Tucker fs core =>                                             (* 760-765 *)
      do core' <- transpose core (rev (iota 0 (size fs)));
      Ok (Tucker (rev fs) core')
  | TSum _ Xs =>                                                  (* 628-631 *)
      do Ys <- (fix go l := match l with
                | [::] => Ok [::]
                | x :: l' => do y <- tT x; do ys <- go l'; Ok (y :: ys)
                end) Xs;
      mk_sum Ys
  end.

(* ------------------------------------------------------------------ *)
(* to_numpy                                                            *)

(* the k-th stored coordinate *)
Definition coord (inds : seq (seq nat)) (k : nat) : seq nat :=
  [seq nth 0%N row k | row <- inds].

(* tensor.py:236-239: X[tuple(indices)] = entries, the assignments being
   performed in order (a later duplicate overwrites an earlier one) *)
Definition sparse_to_numpy (s : seq nat) (inds : seq (seq nat)) (vals : seq R)
  : res arr :=
  if all (fun row => size row == size vals) inds then
    foldM (fun a k => set1 a (coord inds k) (nth 0 vals k)) (zeros R s)
          (iota 0 (size vals))
  else Err ValueError.

(* tensor.py:315-321; "..." is written E, see [einsum_ell] *)
Definition tt_to_numpy (cs : seq arr) : res arr :=
  match cs with
  | [::] => Err IndexError
  | C0 :: cs' =>
      do d0 <- reshape C0 (behead (nshape C0));
      do d <- foldM (fun d C => einsum_ell "Ej,jkl->Ekl" d C) d0 cs';
      reshape d (take (ndim d).-1 (nshape d))
  end.

(* np.sum(a, axis=-1) *)
Definition sum_last (a : arr) : arr :=
  tab (take (ndim a).-1 (nshape a))
      (fun i => sumr (last 0%N (nshape a)) (fun k => get a (rcons i k))).

(* tensor.py:696-703 *)
Definition cp_to_numpy (cs : seq arr) : res arr :=
  match cs with
  | [::] => Err IndexError
  | C0 :: cs' =>
      do d <- foldM (fun d C => einsum_ell "Ej,ij->Eij" d C) C0 cs';
      Ok (sum_last d)
  end.

(* tensor.py:771-780 *)
Definition tucker_to_numpy (fs : seq arr) (core : arr) : res arr :=
  let shape := [seq dim U 1 | U <- fs] in
  let rank := tucker_rank fs in
  do c <- foldM (fun c iU =>
      let: (i, U) := iU in
      let left_dim := prods (take i shape) in
      let right_dim := prods (drop i.+1 rank) in
      do core_mat <- reshape c [:: left_dim; nth 0%N rank i; right_dim];
      einsum "ijk,jl->ilk" [:: core_mat; U])
    core (zip (iota 0 (size fs)) fs);
  reshape c shape.

Fixpoint to_numpy X : res arr :=
  match X with
  | Dense a => Ok a                                               (* 171-172 *)
  | Sparse s inds vals => sparse_to_numpy s inds vals
  | TT cs => tt_to_numpy cs
  | CP cs => cp_to_numpy cs
  | Tucker fs core => tucker_to_numpy fs core
  | TSum s Xs =>                                                  (* 633-637 *)
      (fix go acc l := match l with
        | [::] => Ok acc
        | x :: l' => do a <- to_numpy x; do acc' <- iadd acc a; go acc' l'
        end) (zeros R s) Xs
  end.

(* ------------------------------------------------------------------ *)
(* scalar multiplication                                               *)

(* X * c, tensor.py:177-178, 272-273, 507-512, 662-668 (scalar branch),
   740-743, 782-784 *)
Fixpoint tmul X (c : R) : res tensor :=
  match X with
  | Dense a => Ok (Dense (nscale c a))
  | Sparse s inds vals => Ok (Sparse s inds [seq v * c | v <- vals])
  | TT cs =>
      match rev cs with
      | [::] => Err IndexError
      | C :: r => Ok (TT (rev (nscale c C :: r)))
      end
  | CP cs =>
      match cs with
      | [::] => Err IndexError
      | C :: r => Ok (CP (nscale c C :: r))
      end
  | Tucker fs core => Ok (Tucker fs (nscale c core))
  | TSum _ Xs =>
      do Ys <- (fix go l := match l with
                | [::] => Ok [::]
                | x :: l' => do y <- tmul x c; do ys <- go l'; Ok (y :: ys)
                end) Xs;
      mk_sum Ys
  end.

(* TensorSum * iterable, tensor.py:664-666: zip(..., strict=True) *)
Definition sum_mul_list (Xs : seq tensor) (cs : seq R) : res tensor :=
  if size Xs == size cs then
    do Ys <- mapM (fun p => tmul p.1 p.2) (zip Xs cs); mk_sum Ys
  else Err ValueError.

(* tensor.py:118-119 *)
Definition tneg X : res tensor := tmul X (-1).

(* ------------------------------------------------------------------ *)
(* addition                                                            *)

(* tensor.py:93-103 and 639-643 (the TensorSum override agrees with it) *)
Definition tadd X Y : res tensor :=
  match Y, X with
  | TSum _ ys, TSum _ xs => mk_sum (xs ++ ys)
  | TSum _ ys, _ => mk_sum (X :: ys)
  | _, TSum _ xs => mk_sum (rcons xs Y)
  | _, _ => mk_sum [:: X; Y]
  end.

(* tensor.py:115-116 *)
Definition tsub X Y : res tensor := do Z <- tneg Y; tadd X Z.

(* X += Y: tensor.py:645-650 for sums (in place, keeps self.shape);
   the default falls back on __add__ *)
Definition tiadd X Y : res tensor :=
  match X with
  | TSum s xs => Ok (TSum s (xs ++ match Y with TSum _ ys => ys | _ => [:: Y] end))
  | _ => tadd X Y
  end.

(* ------------------------------------------------------------------ *)
(* TensorTrain.add, tensor.py:520-540                                  *)

Definition tt_add_mid (C1 C2 : arr) : res arr :=                 (* 529-535 *)
  match nshape C1, nshape C2 with
  | [:: r1; d; r2], [:: r3; _; r4] =>
      do row1 <- concat_ax 2 C1 (zeros R [:: r1; d; r4]);
      do row2 <- concat_ax 2 (zeros R [:: r3; d; r2]) C2;
      concat_ax 0 row1 row2
  | _, _ => Err ValueError
  end.

Definition tt_add (cs1 cs2 : seq arr) : res (seq arr) :=
  match cs1, cs2 with
  | A0 :: _, B0 :: _ =>
      do first <- concat_ax 2 A0 B0;
      (* cores[1:-1]: all but the first and the last *)
      do mids <- mapM (fun p => tt_add_mid p.1 p.2)
           (zip (behead (take (size cs1).-1 cs1)) (behead (take (size cs2).-1 cs2)));
      do lst <- concat_ax 0 (last A0 cs1) (last B0 cs2);
      Ok (first :: mids ++ [:: lst])
  | _, _ => Err IndexError
  end.

(* ------------------------------------------------------------------ *)
(* gather                                                              *)

(* TensorTrain.gather, tensor.py:414-440.  [idx] is the list of index rows. *)
(* 435-438, body of the inner loop: next_step[mask] = result[mask] @ mat *)
Definition tt_gather_inner (row : seq nat) (N : nat) (result C : arr)
   (next_step : arr) (j : nat) : res arr :=
  do mat <- pick_ax 1 j C;
  do prod <- matmul result mat;
  Ok (tab [:: N; dim C 2] (fun kb =>
    if nth 0%N row (nth 0%N kb 0) == j then get prod kb else get next_step kb)).

(* 432-439, body of the outer loop *)
Definition tt_gather_step (idx : seq (seq nat)) (N : nat) (result : arr)
   (iC : nat * arr) : res arr :=
  let: (i, C) := iC in
  if (i < size idx)%N || (dim C 1 == 0%N) then              (* idx_array[i], line 436 *)
    foldM (tt_gather_inner (nth [::] idx i) N result C)
      (zeros R [:: N; dim C 2]) (iota 0 (dim C 1))
  else Err IndexError.

Definition tt_gather (cs : seq arr) (idx : seq (seq nat)) : res (seq R) :=
  match cs, idx with
  | C0 :: cs', i0 :: _ =>
      if all (fun row => size row == size i0) idx then       (* np.stack *)
        let N := size i0 in
        do c0 <- reshape C0 (behead (nshape C0));
        do r0 <- take_ax 0 i0 c0;
        do r <- foldM (tt_gather_step idx N) r0 (zip (iota 1 (size cs')) cs');
        Ok (ndata r)                                         (* reshape(-1) *)
      else Err ValueError
  | _, [::] => Err ValueError                                (* np.stack of nothing *)
  | [::], _ => Err IndexError
  end.

(* CPTensor.gather, tensor.py:726-732 *)
Definition cp_gather (cs : seq arr) (idx : seq (seq nat)) : res (seq R) :=
  match zip cs idx with
  | [::] => Err IndexError
  | (C0, i0) :: l =>
      do r0 <- take_ax 0 i0 C0;
      do r <- foldM (fun r p => do c <- take_ax 0 p.2 p.1; nmul r c) r0 l;
      Ok (ndata (sum_last r))
  end.

(* np.ravel_multi_index(rows, shape), each row of length N: ValueError when an index is out
   of range or the number of rows differs from the length of shape.  Rows of different
   lengths raise ValueError as well (NumPy broadcasts rows of length 1: not modelled). *)
Definition ravel_multi (s : seq nat) (inds : seq (seq nat)) (N : nat) : res (seq nat) :=
  if [&& size inds == size s, all (fun row => size row == N) inds &
         all (fun k => inb s (coord inds k)) (iota 0 N)]
  then Ok [seq ravel s (coord inds k) | k <- iota 0 N] else Err ValueError.

(* SparseTensor.dict, tensor.py:288-291; later keys overwrite earlier ones.
   The dictionary is an association list searched from the most recent entry. *)
Definition sparse_dict (s : seq nat) (inds : seq (seq nat)) (vals : seq R)
  : res (seq (nat * R)) :=
  do keys <- ravel_multi s inds (size vals);
  Ok (rev (zip keys vals)).

Fixpoint dict_get (d : seq (nat * R)) (k : nat) : R :=       (* dic.get(k, 0.0) *)
  match d with
  | [::] => 0
  | (k', v) :: d' => if k' == k then v else dict_get d' k
  end.

(* SparseTensor.gather, tensor.py:275-286 *)
Definition sparse_gather (s : seq nat) (inds : seq (seq nat)) (vals : seq R)
   (idx : seq (seq nat)) : res (seq R) :=
  do keys <- ravel_multi s idx (size (head [::] idx));
  do dic <- sparse_dict s inds vals;
  Ok [seq dict_get dic k | k <- keys].

(* [other.gather(idx)]; AttributeError for the classes without that method *)
Definition gather X (idx : seq (seq nat)) : res (seq R) :=
  match X with
  | TT cs => tt_gather cs idx
  | CP cs => cp_gather cs idx
  | Sparse s inds vals => sparse_gather s inds vals idx
  | _ => Err AttributeError
  end.

(* ------------------------------------------------------------------ *)
(* dot                                                                 *)

(* np.dot of flat lists; ValueError when the lengths differ *)
Definition ldot (u v : seq R) : res R :=
  if size u == size v
  then Ok (foldr (fun p acc => p.1 * p.2 + acc) 0 (zip u v)) else Err ValueError.

(* TensorTrain.dot of two trains, tensor.py:548-555 *)
Definition tt_dot (cs1 cs2 : seq arr) : res R :=
  match cs1, cs2 with
  | A0 :: cs1', B0 :: cs2' =>
      do r0 <- einsum "ijk,ljm->km" [:: A0; B0];
      do r <- foldM (fun r p => einsum "ij,ika,jkb->ab" [:: r; p.1; p.2])
                    r0 (zip cs1' cs2');
      Ok (nsum r)
  | _, _ => Err IndexError
  end.

(* tensor.py:127-129 *)
Definition dense_dot X Y : res R :=
  do a <- to_numpy X; do b <- to_numpy Y; ldot (ndata a) (ndata b).

(* The double dispatch of Tensor.dot (121-129), SparseTensor.dot (250-255),
   TensorTrain.dot (542-557) and TensorSum.dot (670-671).  [fuel] bounds the
   depth of the call stack; running out models Python's RecursionError, which
   the theorems exclude by giving an explicit sufficient depth. *)
Fixpoint dot (fuel : nat) X Y (reverse : bool) : option (res R) :=
  match fuel with
  | 0%N => None
  | fuel'.+1 =>
      let base :=                                             (* Tensor.dot *)
        match Y with
        | TSum _ _ => dot fuel' Y X false
        | _ => if ~~ reverse then dot fuel' Y X true else Some (dense_dot X Y)
        end in
      match X with
      | TSum _ Xs =>
          foldr (fun x acc =>
              match dot fuel' x Y reverse, acc with
              | Some (Ok v), Some (Ok w) => Some (Ok (v + w))
              | Some (Err e), _ => Some (Err e)
              | Some _, Some (Err e) => Some (Err e)
              | _, _ => None
              end) (Some (Ok 0)) Xs
      | Sparse _ inds vals =>
          match gather Y inds with
          | Err AttributeError => base
          | Err e => Some (Err e)
          | Ok other_entries => Some (ldot other_entries vals)
          end
      | TT cs =>
          match Y with
          | TT cs' => Some (tt_dot cs cs')
          | _ => base
          end
      | _ => base
      end
  end.

(* ------------------------------------------------------------------ *)
(* SparseTensor.split, tensor.py:215-234 (n_summands >= 0)             *)

Definition split_slice {A} (nnz n i : nat) (l : seq A) : seq A :=
  let block := (nnz %/ n)%N in
  if (i < n.-1)%N then take (i.+1 * block - i * block)%N (drop (i * block)%N l)
  else take (nnz - i * block)%N (drop (i * block)%N l).

Definition sparse_split (s : seq nat) (inds : seq (seq nat)) (vals : seq R) (n : nat)
  : res tensor :=
  if n == 0%N then Err ZeroDivisionError else
  let nnz := size vals in
  mk_sum [seq Sparse s [seq split_slice nnz n i row | row <- inds]
                       (split_slice nnz n i vals)
         | i <- iota 0 n].

(* DenseTensor.to_sparse, tensor.py:148-159: np.indices(shape).reshape(d, -1) *)
Definition to_sparse (a : arr) : tensor :=
  let s := nshape a in
  Sparse s [seq [seq nth 0%N (unravel s p) k | p <- iota 0 (prods s)]
           | k <- iota 0 (size s)] (ndata a).

(* ------------------------------------------------------------------ *)
(* partial_dense, tensor.py:390-406                                    *)

(* a.reshape(-1, a.shape[-1]) *)
Definition flat_lr (a : arr) : res arr := reshape_infer a [::] [:: last 0%N (nshape a)].
(* a.reshape(a.shape[0], -1) *)
Definition flat_rl (a : arr) : res arr := reshape_infer a [:: dim a 0] [::].

(* The accumulated list of partial products, computed by a loop that appends. *)
Definition partial_dense_lr (cs : seq arr) : res (seq arr) :=
  match cs with
  | [::] => Err IndexError
  | C0 :: _ =>
      do p0 <- flat_lr C0;
      foldM (fun ps C =>
          do c <- einsum "ij,jkl->ikl" [:: last p0 ps; C];
          do c' <- flat_lr c;
          Ok (rcons ps c'))
        [:: p0] (behead (take (size cs).-1 cs))               (* cores[1:-1] *)
  end.

Definition partial_dense_rl (cs : seq arr) : res (seq arr) :=
  match rev cs with
  | [::] => Err IndexError
  | Cd :: _ =>
      do p0 <- flat_rl Cd;
      foldM (fun ps C =>
          do c <- einsum "ijk,kl->ijl" [:: C; last p0 ps];
          do c' <- flat_rl c;
          Ok (rcons ps c'))
        [:: p0] (behead (take (size cs).-1 (rev cs)))         (* cores[-2:0:-1] *)
  end.

(* TensorTrain.zero, tensor.py:380-388 *)
Definition tt_zero (shape : seq nat) (rank : ttrank) : res (seq arr) :=
  do rk <- process_tt_rank rank shape false;
  Ok [seq zeros R [:: p.1.1; p.1.2; p.2]
     | p <- zip (zip (1%N :: rk) shape) (rcons rk 1%N)].

End Tensor.
