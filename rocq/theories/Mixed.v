(* Model of a SketchedTensorTrain used as a Tensor: the methods it inherits from Tensor, and the
   methods of the other classes when one of the operands (or one of the summands) is a
   SketchedTensorTrain.  Definitions only. *)
From Coq Require Import String Ascii NArith.
From mathcomp Require Import all_ssreflect all_algebra.
From Verif Require Import Py Nd Utils Tensor TensorNum Sketch.
Set Implicit Arguments. Unset Strict Implicit. Unset Printing Implicit Defensive.
Import GRing.Theory.
Local Open Scope ring_scope.

(* The instances of Tensor: a tensor of tensor.py which is not a sum, a streaming sketch
   (sketch.py:246-361), a sum of instances (tensor.py:612-622) *)
Inductive any (R : Type) : Type :=
  | ALeaf (X : tensor R)
  | ASk (st : sketched R)
  | ASum (shape : seq nat) (summands : seq (any R)).

Section Mixed.
Variable R : rcfType.
Notation arr := (nd R).
Notation tensor := (tensor R).
Notation any := (any R).
(* the parameters of Sketch.v and TensorNum.v *)
Variable to_normal : N -> R.
Variable tt_random : seq nat -> seq nat -> N -> seq arr.
Variable stream : N -> nat -> R.
Variable offset : N -> nat -> N.
Variable right_seed_of : N -> nat -> N.
Variable lstsq : arr -> arr -> res arr.
Variable qr_econ : arr -> res (arr * arr).
Variable qr : arr -> res (arr * arr).

(* the [shape] attribute *)
Definition a_shape (X : any) : seq nat :=
  match X with ALeaf T => tshape T | ASk st => stt_shape st | ASum s _ => s end.

(* TensorSum(tensors), tensor.py:618-622 *)
Definition a_mk_sum (Xs : seq any) : res any :=
  match Xs with [::] => Err IndexError | X :: _ => Ok (ASum (a_shape X) Xs) end.

(* to_numpy: SketchedTensorTrain sketch.py:282-283, TensorSum tensor.py:633-637 *)
Fixpoint a_to_numpy (X : any) : res arr :=
  match X with
  | ALeaf T => to_numpy T
  | ASk st => do cs <- stt_to_tt lstsq st; to_numpy (TT cs)
  | ASum s Xs =>
      (fix go acc l := match l with
        | [::] => Ok acc
        | x :: l' => do a <- a_to_numpy x; do acc' <- iadd acc a; go acc' l'
        end) (zeros R s) Xs
  end.

(* X * c: sketch.py:355-358, TensorSum tensor.py:662-668 *)
Fixpoint a_mul (X : any) (c : R) : res any :=
  match X with
  | ALeaf T => do T' <- tmul T c; Ok (ALeaf T')
  | ASk st => do st' <- stt_mul st c; Ok (ASk st')
  | ASum _ Xs =>
      do Ys <- (fix go l := match l with
                | [::] => Ok [::]
                | x :: l' => do y <- a_mul x c; do ys <- go l'; Ok (y :: ys)
                end) Xs;
      a_mk_sum Ys
  end.
Definition a_neg (X : any) : res any := a_mul X (-1).                  (* tensor.py:118-119 *)
Definition a_div (X : any) (c : R) : res any :=                        (* tensor.py:112-113 *)
  if c == 0 then Err ZeroDivisionError else a_mul X (1 / c).

(* the object as a tensor of tensor.py, if there is no sketch in it *)
Fixpoint plain (X : any) : option tensor :=
  match X with
  | ALeaf T => Some T
  | ASk _ => None
  | ASum s Xs =>
      omap (@TSum R s) ((fix go l := match l with
        | [::] => Some [::]
        | x :: l' => obind (fun y => omap (cons y) (go l')) (plain x)
        end) Xs)
  end.

(* X + Y: SketchedTensorTrain.__add__ (sketch.py:292-301) when X is a sketch - it sketches Y,
   which raises when Y is or contains a sketch (sketch_dispatch.py:150-157; ValueError, or
   AttributeError if another summand is not supported by the DRM) - otherwise tensor.py:93-103 *)
Definition a_add (X Y : any) : res any :=
  match X, Y with
  | ASk st, _ =>
      if plain Y is Some T
      then do st' <- stt_add to_normal tt_random stream offset right_seed_of lstsq qr_econ st T; Ok (ASk st')
      else Err ValueError
  | ASum _ xs, ASum _ ys => a_mk_sum (xs ++ ys)
  | ASum _ xs, _ => a_mk_sum (rcons xs Y)
  | _, ASum _ ys => a_mk_sum (X :: ys)
  | _, _ => a_mk_sum [:: X; Y]
  end.
Definition a_sub (X Y : any) : res any := do Z <- a_neg Y; a_add X Z.  (* tensor.py:115-116 *)

(* only tensors of tensor.py have gather *)
Definition a_gather (X : any) (idx : seq (seq nat)) : res (seq R) :=
  if X is ALeaf T then gather T idx else Err AttributeError.

(* tensor.py:127-129 *)
Definition a_dense_dot (X Y : any) : res R :=
  do a <- a_to_numpy X; do b <- a_to_numpy Y; ldot (ndata a) (ndata b).

(* dot: Tensor (tensor.py:121-129), SparseTensor (250-255), TensorTrain (542-557), TensorSum
   (670-671), SketchedTensorTrain (sketch.py:360-361).  [fuel]: the depth of the call stack. *)
Fixpoint a_dot (fuel : nat) (X Y : any) (reverse : bool) : option (res R) :=
  match fuel with
  | 0%N => None
  | fuel'.+1 =>
      let base :=
        match Y with
        | ASum _ _ => a_dot fuel' Y X false
        | _ => if ~~ reverse then a_dot fuel' Y X true else Some (a_dense_dot X Y)
        end in
      match X with
      | ASum _ Xs =>
          foldr (fun x acc =>
              match a_dot fuel' x Y reverse, acc with
              | Some (Ok v), Some (Ok w) => Some (Ok (v + w))
              | Some (Err e), _ => Some (Err e)
              | Some _, Some (Err e) => Some (Err e)
              | _, _ => None
              end) (Some (Ok 0)) Xs
      | ASk st =>
          match stt_to_tt lstsq st with
          | Ok cs => a_dot fuel' (ALeaf (TT cs)) Y reverse
          | Err e => Some (Err e)
          end
      | ALeaf (Sparse _ inds vals) =>
          match a_gather Y inds with
          | Err AttributeError => base
          | Err e => Some (Err e)
          | Ok other_entries => Some (ldot other_entries vals)
          end
      | ALeaf (TT cs) => if Y is ALeaf (TT cs') then Some (tt_dot cs cs') else base
      | _ => base
      end
  end.

(* X.norm(): tensor.py:131-134 (also for sketches), 241-242, 442-444 *)
Definition a_norm (fuel : nat) (X : any) : res R :=
  match X with
  | ALeaf (Sparse _ _ vals) => Ok (lnorm vals)
  | ALeaf (TT cs) => tt_norm qr cs
  | _ => match a_dot fuel X X false with
         | Some r => do v <- r; Ok (Num.sqrt `|v|)
         | None => Err RecursionError
         end
  end.

(* Tensor.error, tensor.py:52-81 *)
Definition a_tensor_error (fuel : nat) (X Y : any) (relative rmse fast : bool) : res (option R) :=
  do other_norm <- a_norm fuel Y;
  do e <- (if fast then
             do self_norm <- a_norm fuel X;
             do d <- match a_dot fuel X Y false with Some r => r | None => Err RecursionError end;
             let norm_sum := self_norm ^+ 2 + other_norm ^+ 2 in
             if norm_sum == 0 then Err ZeroDivisionError
             else Ok (Num.sqrt norm_sum * Num.sqrt `|1 - 2%:R * d / norm_sum|)
           else
             do a <- a_to_numpy X; do b <- a_to_numpy Y; do c <- nsub a b;
             Ok (nnorm c));
  error_tail e (Ok other_norm) relative rmse (a_shape X).

(* X.error(Y): for a train X, Y is first converted by Y.to_tt() if it has that method
   (tensor.py:591-610), which sketches do *)
Definition a_error (fuel : nat) (X Y : any) (relative rmse fast : bool) : res (option R) :=
  match X, Y with
  | ALeaf (TT cs1), ALeaf (TT cs2) => tt_error qr cs1 cs2 relative rmse
  | ALeaf (TT cs1), ASk st => do cs2 <- stt_to_tt lstsq st; tt_error qr cs1 cs2 relative rmse
  | _, _ => a_tensor_error fuel X Y relative rmse fast
  end.
End Mixed.
