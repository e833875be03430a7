(* Specification for tt_sum_gmres: an Arnoldi process with inexact arithmetic, on functions of
   multi-indices of shape s.  No reference to the model of the code. *)
From mathcomp Require Import all_ssreflect all_algebra.
From Verif Require Import Nd Spec.
Set Implicit Arguments. Unset Strict Implicit. Unset Printing Implicit Defensive.
Import GRing.Theory Num.Theory.
Local Open Scope ring_scope.

Section ArnSpec.
Variable R : rcfType.
Variable s : seq nat.
Notation fn := (seq nat -> R).

(* inner product and Euclidean norm *)
Definition ipr (x y : fn) : R := sum_idx s (fun i => x i * y i).
Definition norm2 (x : fn) : R := Num.sqrt (ipr x x).
Definition eqf (x y : fn) : Prop := forall i, inb s i -> x i = y i.

(* the indices against which vector number i + 1 is orthogonalized: all previous ones, or only
   the last three if the operator is declared symmetric *)
Definition window (symmetric : bool) (i : nat) : seq nat :=
  if symmetric then iota (i - 2) (i.+1 - (i - 2)) else iota 0 i.+1.

(* k steps of the process.  Calls of the rounding routine: number 0 for the initial residual,
   2i+1 and 2i+2 in step i; [inp l], [out l]: what call l got and what it returned. *)
Record arnoldi (op : fn -> fn) (symmetric : bool) (b x0 : fn) (k : nat) (inp out : nat -> fn)
   (beta : R) (nu : nat -> fn) (H : nat -> nat -> R) : Prop := Arnoldi {
  arn_inp0 : eqf (inp 0%N) (fun i => b i - op x0 i);
  arn_beta : beta = norm2 (out 0%N);
  arn_nu0 : eqf (nu 0%N) (fun i => out 0%N i / beta);
  arn_inp1 : forall j, (j < k)%N -> eqf (inp (2 * j + 1)%N) (op (nu j));
  arn_H : forall p j, (j < k)%N -> (p <= k)%N ->
    H p j = if p \in window symmetric j then ipr (out (2 * j + 1)%N) (nu p)
            else if p == j.+1 then norm2 (out (2 * j + 2)%N) else 0;
  arn_inp2 : forall j, (j < k)%N ->
    eqf (inp (2 * j + 2)%N) (fun i => out (2 * j + 1)%N i - \sum_(p <- window symmetric j) H p j * nu p i);
  arn_nu : forall j, (j < k)%N -> eqf (nu j.+1) (fun i => out (2 * j + 2)%N i / H j.+1 j) }.

(* no rounding error in call l; the rounding error of call l *)
Definition exact_call (inp out : nat -> fn) (l : nat) : Prop := eqf (inp l) (out l).
Definition call_err (inp out : nat -> fn) (l : nat) : R := norm2 (fun i => inp l i - out l i).

(* r is the least value of || H y - beta e_1 ||^2, H of size (k+1) x k, and y attains it *)
Definition small_sq (H : nat -> nat -> R) (beta : R) (k : nat) (y : nat -> R) : R :=
  \sum_(0 <= p < k.+1) (\sum_(0 <= q < k) H p q * y q - (if p == 0%N then beta else 0)) ^+ 2.
Definition is_lsq (H : nat -> nat -> R) (beta : R) (k : nat) (y : nat -> R) (r : R) : Prop :=
  r = small_sq H beta k y /\ forall z, r <= small_sq H beta k z.

(* x0 + y_0 nu_0 + ... + y_(k-1) nu_(k-1) *)
Definition combine (x0 : fn) (k : nat) (y : nat -> R) (nu : nat -> fn) : fn :=
  fun i => x0 i + \sum_(0 <= j < k) y j * nu j i.

(* op is additive and homogeneous, and reads its argument on the indices of s only *)
Definition linear_op (op : fn -> fn) : Prop :=
  (forall x y, eqf x y -> eqf (op x) (op y)) /\
  (forall c x y, eqf (op (fun i => c * x i + y i)) (fun i => c * op x i + op y i)).
Definition self_adjoint (op : fn -> fn) : Prop := forall x y, ipr (op x) y = ipr x (op y).
End ArnSpec.
