(* Model of scripts/do_cookie.py:32-84, the function experiment_cookie (definitions only).  The
   global variables map_sum, B, precond_map and x0 of the script (22-23) are arguments.  Not
   modelled: logging and timings. *)
From Coq Require Import String Ascii NArith.
From mathcomp Require Import all_ssreflect all_algebra.
From Verif Require Import Py Nd Utils Tensor TensorNum Sketch Mpo Gmres Mixed MixedSpec.
Set Implicit Arguments. Unset Strict Implicit. Unset Printing Implicit Defensive.
Import GRing.Theory Num.Theory.
Local Open Scope ring_scope.

Section DoCookie.
Variable R : rcfType.
Notation arr := (nd R).
(* the oracles of Gmres.v *)
Variables (qr : arr -> res (arr * arr)) (svd : arr -> res (arr * arr * arr)).
Variable solve_tri : arr -> arr -> res arr.
Variable to_normal : N -> R.
Variable tt_random : seq nat -> seq nat -> N -> seq arr.
Variable stream : N -> nat -> R.
Variable offset : N -> nat -> N.
Variable right_seed_of : N -> nat -> N.
Variable lstsq : arr -> arr -> res arr.
Variable qr_econ : arr -> res (arr * arr).
Variable np_lstsq : arr -> arr -> res (arr * seq R).
Variable fuel : nat.
Notation round_tt_sum := (round_tt_sum qr svd to_normal tt_random stream offset right_seed_of lstsq qr_econ).
Notation tt_sum_gmres := (tt_sum_gmres qr svd solve_tri to_normal tt_random stream offset right_seed_of lstsq qr_econ np_lstsq).
Notation error X Y := (a_error lstsq qr fuel (whole X) (whole Y) true false false).

Section Problem.
Variables (map_sum : mapsum R) (B : seq arr) (precond_map : precond R) (x0 : seq arr).

(* the body of the loop over final_round_ranks, 64-76: true_error and precond_error *)
Definition cookie_errors (ent : nat -> N) (result : tensor R) (method : rounding) (rank : nat) : res (option R * option R) :=
  do result_rounded <- round_tt_sum ent result (RInt rank) None method (2, 1)%N;              (* 66-68 *)
  do Y <- mapsum_call solve_tri map_sum result_rounded;
  do true_error <- error Y (TT B);                                                            (* 70 *)
  do Ys <- tensors_of Y;                                                                      (* 71-73 *)
  do Zs <- mapM (fun t => do cs <- cores_of t; do zs <- precond_backward solve_tri precond_map cs; Ok (TT zs)) Ys;
  do Z <- mk_sum Zs;
  do PB <- precond_backward solve_tri precond_map B;
  do precond_error <- error Z (TT PB);
  Ok (true_error, precond_error).

(* experiment_cookie, 32-84: last_residual and the arrays true_error and precond_error.
   [ent]: the entropy of the sketches in tt_sum_gmres, [entf i]: of the rounding number i.  The
   script has maxiter = 50 and tolerance = 0 (54-55), here arguments. *)
Definition experiment_cookie (maxiter : nat) (tolerance : R) (ent : nat -> nat -> N) (entf : nat -> nat -> N) (rounding_method rounding_method_final : rounding)
   (max_rank : nat) (final_round_ranks : seq nat) : res (option R * seq (option R * option R)) :=
  do o <- tt_sum_gmres ent map_sum B (RInt max_rank) (Some precond_map) None (Some x0) tolerance maxiter true rounding_method RNone;   (* 47-60 *)
  do errors <- mapM (fun p => cookie_errors (entf p.1) (g_x o) rounding_method_final p.2)
                    (zip (iota 0 (size final_round_ranks)) final_round_ranks);
  Ok (last None (g_residual_norm o), errors).
End Problem.
End DoCookie.
