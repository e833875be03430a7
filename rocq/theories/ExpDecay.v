(* Model of tt_exp_decay, which makes the test tensors of scripts/plot_dimension_scaling.py:29-48,
   plot_dimension_scaling_gaussian.py:27-46 and plot_timings.py:41-58, and of the error function of
   plot_timings.py (definitions only). *)
From Coq Require Import String Ascii NArith.
From mathcomp Require Import all_ssreflect all_algebra.
From Verif Require Import Py Nd Utils Tensor TensorNum Rng Random Sketch Mixed.
Set Implicit Arguments. Unset Strict Implicit. Unset Printing Implicit Defensive.
Import GRing.Theory Num.Theory.
Local Open Scope ring_scope.

(* which of the three scripts *)
Inductive script := DimensionScaling | Gaussian | Timings.

Section ExpDecay.
Variable R : rcfType.
Notation arr := (nd R).
(* the oracles of Random.v *)
Variable gen : N -> nat -> nat -> R.
Variable threads : nat.
Variable state : N -> nat -> N.
Variable qr : arr -> res (arr * arr).
(* np.linalg.svd(A, full_matrices=False) *)
Variable svd_red : arr -> res (arr * arr * arr).
(* np.logspace(0, min_svdval, n) *)
Variable logspace : nat -> seq R.

(* plot_dimension_scaling.py:34-40: the larger of the two unfoldings, by its number of singular
   values; the right one if they are equal *)
Definition mat_shape (C : arr) : nat * nat :=
  let left_mat_shape := (dim C 0 * dim C 1, dim C 2)%N in
  let right_mat_shape := (dim C 0, dim C 1 * dim C 2)%N in
  if (minn left_mat_shape.1 left_mat_shape.2 > minn right_mat_shape.1 right_mat_shape.2)%N
  then left_mat_shape else right_mat_shape.

(* the new singular values: plot_dimension_scaling.py:43-44, the same in the gaussian script;
   plot_timings.py:55 multiplies the old ones.  The number of them is that of the old ones. *)
Definition new_svals (f : script) (Sv : arr) (m : nat) : arr :=
  let l := logspace (dim Sv 0) in
  match f with
  | Timings => Nd (nshape Sv) [seq p.1 * p.2 | p <- zip (ndata Sv) l]
  | _ => Nd [:: size l] [seq x * Num.sqrt m%:R | x <- l]
  end.

(* the body of the loop, plot_dimension_scaling.py:34-46 *)
Definition decay_core (f : script) (C : arr) : res arr :=
  let ms := mat_shape C in
  do M <- reshape C [:: ms.1; ms.2];
  do usv <- svd_red M;
  let: (U, Sv, Vt) := usv in
  do A <- matmul U (diag (new_svals f Sv (minn ms.1 ms.2)));
  do B <- matmul A Vt;
  reshape B (nshape C).

(* plot_dimension_scaling.py:29-48; the gaussian script calls tensor.orthogonalize() and drops the
   result (line 45 there) *)
Definition tt_exp_decay (f : script) (shape : seq nat) (rank : ttrank) (seed : N) : res (seq arr) :=
  do cs <- tt_random gen threads state qr shape rank seed true (Some true) "norm-1";
  do out <- mapM (decay_core f) cs;
  match f with
  | Gaussian => do _ <- tt_orthogonalize qr out; Ok out
  | _ => Ok out
  end.

(* tt_error_func of plot_timings.py:61-68; line 66 reads the attribute np.infa *)
Definition tt_error_func_timings (lstsq : arr -> arr -> res arr) (T X : any R) : res R :=
  do cs1 <- match T with
            | ASk st => stt_to_tt lstsq st
            | ALeaf (TT cs) => Ok cs
            | _ => Err AttributeError
            end;
  match X with
  | ALeaf (TT cs2) =>
      do n2 <- tt_norm qr cs2;
      if n2 == 0 then Err AttributeError else
      do neg <- tneg (TT cs2);
      if neg is TT ncs then
        do s <- tt_add cs1 ncs;
        do e <- tt_norm qr s;
        Ok (e / n2)
      else Err TypeError
  | _ => Err AttributeError
  end.
End ExpDecay.
