(* Model of the [size], [nnz], [num_summands] and [ndim] properties of tt_sketch/tensor.py and
   tt_gmres.py, and of get_drm_capabilities (sketch.py).  Definitions only. *)
From Coq Require Import String Ascii NArith.
From mathcomp Require Import all_ssreflect all_algebra.
From Verif Require Import Py Nd Utils Tensor Sketch.
Set Implicit Arguments. Unset Strict Implicit. Unset Printing Implicit Defensive.

(* What the expression [x.size] evaluates to: a number, or (tensor.py:688 has no @property) a
   bound method, which gives a number only when it is called. *)
Inductive attr := Num of nat | Method of nat.

Section Size.
Variable R : comRingType.
Notation arr := (nd R).
Notation tensor := (tensor R).

(* numpy's [a.size] *)
Definition asize (a : arr) : nat := prods (nshape a).

(* [x.size]: tensor.py:167-169 (dense), 206-208 (sparse), 516-518 (TT), 624-626 (sums: Python's
   [sum] starts from 0 and adds; int + bound method raises TypeError), 688-689 (CP), 767-769 *)
Fixpoint tsize (X : tensor) : res attr :=
  match X with
  | Dense a => Ok (Num (asize a))
  | Sparse s inds vals => Ok (Num (size vals * (size s + 1)))
  | TT cs => Ok (Num (sumn [seq asize C | C <- cs]))
  | CP cs => Ok (Method (sumn [seq asize C | C <- cs]))
  | Tucker fs core => Ok (Num (asize core + sumn [seq asize U | U <- fs]))
  | TSum _ Xs =>
      (fix go (acc : nat) l := match l with
        | [::] => Ok (Num acc)
        | x :: l' => do v <- tsize x;
                     match v with
                     | Num m => go (acc + m) l'
                     | Method _ => Err TypeError
                     end
        end) 0 Xs
  end.

(* [x.nnz], tensor.py:210-213; only sparse tensors have it *)
Definition tnnz (X : tensor) : res nat :=
  if X is Sparse _ _ vals then Ok (size vals) else Err AttributeError.

(* [x.num_summands], tensor.py:658-660; only sums have it *)
Definition num_summands (X : tensor) : res nat :=
  if X is TSum _ Xs then Ok (size Xs) else Err AttributeError.

(* [x.ndim], tensor.py:83-86 *)
Definition tndim (X : tensor) : nat := size (tshape X).
End Size.

(* issubclass(drm, capability): the bases named in the class statements, drm/*.py:
   dense_gaussian_drm.py:17-19, sparse_gaussian_drm.py:11, tensor_train_drm.py:23-30,
   sparse_sign_drm.py:11; CanIncreaseRank is a CanSlice, drm_base.py:108 *)
Inductive capability := CanSlice | CanIncreaseRank | CansketchSparse | CansketchDense | CansketchTT.
Definition subclass (c : drm_class) (k : capability) : bool :=
  match c, k with
  | DenseGaussianDRM, _ => true
  | SparseGaussianDRM, (CansketchSparse | CanIncreaseRank | CanSlice) => true
  | SparseGaussianDRM, _ => false
  | TensorTrainDRM, CanIncreaseRank => false
  | TensorTrainDRM, _ => true
  | SparseSignDRM, (CansketchSparse | CanSlice) => true
  | SparseSignDRM, _ => false
  end.
(* get_drm_capabilities(), sketch.py:479-494; dictionaries are association lists and class
   names are the classes themselves *)
Definition ALL_DRM : seq drm_class :=                                (* drm/__init__.py:7 *)
  [:: DenseGaussianDRM; SparseGaussianDRM; TensorTrainDRM; SparseSignDRM].
Definition get_drm_capabilities : seq (drm_class * seq (capability * bool)) :=
  [seq (c, [seq (k, subclass c k) | k <- [:: CanSlice; CanIncreaseRank; CansketchSparse; CansketchDense; CansketchTT]])
  | c <- ALL_DRM].
