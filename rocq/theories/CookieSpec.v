(* Specification for linear maps written by a user, and for those of scripts/cookie_problem.py *)
From Coq Require Import String Ascii NArith.
From mathcomp Require Import all_ssreflect all_algebra.
From Verif Require Import Py Nd Tensor Spec GmresSpec.
Set Implicit Arguments. Unset Strict Implicit. Unset Printing Implicit Defensive.
Import GRing.Theory Num.Theory.
Local Open Scope ring_scope.

Section CookieSpec.
Variable R : rcfType.
Notation arr := (nd R).
Notation allpos := (all (fun n => 0 < n)%N).

(* the method __call__ of a user's linear map succeeds on all trains of shape s, returns a train of
   shape t, introduces no rank 0, and the entries of the result are act applied to the entries of
   its argument *)
Definition computes (call : seq arr -> res (seq arr)) (s t : seq nat) (act : (seq nat -> R) -> seq nat -> R) : Prop :=
  forall cs, wf_tt cs -> tshape (TT cs) = s -> exists2 ys, call cs = Ok ys &
    [/\ wf_tt ys, tshape (TT ys) = t, allpos (tt_rank cs) -> allpos (tt_rank ys) &
        forall j, inb t j -> den (TT ys) j = act (den (TT cs)) j].

(* the function computed by CookieMap(A, mode, shape, coeffs) *)
Definition cookie_act (A : arr) (mode : nat) (coeffs : arr) (s : seq nat) (x : seq nat -> R) (j : seq nat) : R :=
  (if mode == 0%N then 1 else get coeffs [:: nth 0%N j mode]) *
  \sum_(0 <= l < nth 0%N s 0) get A [:: l; nth 0%N j 0] * x (upd j 0 l).

End CookieSpec.
