(* scripts/experiment_base.py, lines 92-193: the functions that the plotting scripts pass to
   Experiment.do_experiment.  They return the error (None: infinite or not a number, the input
   is zero) and the time, which is not modelled.  Ranks are given (None raises); recompression
   ranks are integers.  Definitions only. *)
From Coq Require Import String Ascii NArith.
From mathcomp Require Import all_ssreflect all_algebra.
From Verif Require Import Py Nd Utils Tensor TensorNum Sketch Mixed.
Set Implicit Arguments. Unset Strict Implicit. Unset Printing Implicit Defensive.

Section Drivers.
Variable R : rcfType.
Notation arr := (nd R).
Notation tensor := (tensor R).
Notation any := (any R).
(* the parameters of Sketch.v, TensorNum.v and Mixed.v *)
Variable to_normal : N -> R.
Variable tt_random : seq nat -> seq nat -> N -> seq arr.
Variable stream : N -> nat -> R.
Variable offset : N -> nat -> N.
Variable right_seed_of : N -> nat -> N.
Variable lstsq : arr -> arr -> res arr.
Variable qr_econ : arr -> res (arr * arr).
Variable qr : arr -> res (arr * arr).
Variable svd svd_red : arr -> res (arr * arr * arr).
Variable fuel : nat.

Definition error_func : Type := option (any -> any -> res (option R)).
(* lines 115-118, 144-147, 165-168, 178-181, 190-193 *)
Definition report (f : error_func) (T X : any) : res (option R) :=
  match f with
  | Some f => f T X
  | None => a_error lstsq qr fuel T X true false false
  end.

(* max(tt.rank) *)
Definition max_rank (cs : seq arr) : res nat :=
  match tt_rank cs with [::] => Err ValueError | r :: rs => Ok (foldl maxn r rs) end.

(* an input of a script, a Tensor of tensor.py *)
Fixpoint input (T : tensor) : any :=
  match T with TSum s Xs => ASum s (map input Xs) | _ => ALeaf T end.

(* .round(max_rank=recompression_rank), lines 140 and 162 *)
Definition recompress (cs : seq arr) (m : option nat) : res (seq arr) :=
  match m with None => Ok cs | Some m => tt_round qr svd cs None (Some (RInt m)) false end.

(* lines 92-119; the keyword arguments seed, left_drm, right_drm are not passed on *)
Definition experiment_stream_sketch (X : tensor) (left_rank right_rank : ttrank)
   (ltype rtype : option drm_class) (f : error_func) (recompression : option nat)
   (ent : nat -> N) : res (option R) :=
  do st <- stream_sketch to_normal tt_random stream offset right_seed_of lstsq qr_econ
             X left_rank right_rank None ltype rtype None None ent;
  do T <- match recompression with
          | None => Ok (ASk st)
          | Some m =>
              do cs <- stt_to_tt lstsq st;
              do out <- recompress cs (Some m);
              do r <- max_rank out;
              if (r <= m)%N then Ok (ALeaf (TT out)) else Err AssertionError
          end;
  report f T (input X).

(* lines 122-148 *)
Definition experiment_orthogonal_sketch (X : tensor) (left_rank right_rank : ttrank)
   (ltype rtype : option drm_class) (f : error_func) (recompression : option nat)
   (ent : nat -> N) : res (option R) :=
  do cs <- orthogonal_sketch to_normal tt_random stream offset right_seed_of lstsq qr_econ
             X left_rank right_rank None ltype rtype None None ent;
  do out <- recompress cs recompression;
  report f (ALeaf (TT out)) (input X).

(* lines 151-169 *)
Definition experiment_hmt_sketch (X : tensor) (rank : ttrank) (type : option drm_class)
   (f : error_func) (recompression : option nat) (ent : nat -> N) : res (option R) :=
  do cs <- hmt_sketch to_normal tt_random stream offset lstsq qr_econ X rank None type None false ent;
  do out <- recompress cs recompression;
  report f (ALeaf (TT out)) (input X).

(* lines 172-182 *)
Definition experiment_tt_svd (X : tensor) (rank : option ttrank) (f : error_func) : res (option R) :=
  do cs <- tt_svd svd_red X rank;
  report f (ALeaf (TT cs)) (input X).

(* lines 184-193; only trains have the method round *)
Definition experiment_tt_round (X : tensor) (rank : option ttrank) (f : error_func) : res (option R) :=
  match X with
  | TT cs => do out <- tt_round qr svd cs None rank false; report f (ALeaf (TT out)) (input X)
  | _ => Err AttributeError
  end.

(* tt_error_func(tt1, tt2, relative), scripts/plot_dimension_scaling.py:51-60 (the same function
   is in plot_dimension_scaling_gaussian.py; the one of plot_timings.py is in ExpDecay.v); tt2 is
   a train; Some None is np.inf *)
Definition tt_error_func (T X : any) (relative : bool) : res (option R) :=
  do cs1 <- match T with
            | ASk st => stt_to_tt lstsq st
            | ALeaf (TT cs) => Ok cs
            | _ => Err AttributeError
            end;
  match X with
  | ALeaf (TT cs2) =>
      do n2 <- tt_norm qr cs2;
      if n2 == 0%R then Ok None else
      do neg <- tneg (TT cs2);
      if neg is TT ncs then
        do s <- tt_add cs1 ncs;
        do e <- tt_norm qr s;
        Ok (Some (if relative then (e / n2)%R else e))
      else Err TypeError
  | _ => Err AttributeError
  end.
End Drivers.
