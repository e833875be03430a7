(* Python exceptions as values.  Every modelled function that can raise returns
   [res A].  Only the exception class is modelled, not the message. *)
From mathcomp Require Import all_ssreflect.
Set Implicit Arguments. Unset Strict Implicit. Unset Printing Implicit Defensive.

Inductive exn :=
  | ValueError | IndexError | TypeError | AttributeError | UnboundLocalError
  | NameError | LinAlgError | ZeroDivisionError | KeyError | RecursionError
  | RuntimeError | AssertionError
  | NonFinite.   (* not an exception: inf or nan values arise, about which the real-number model says nothing *)

Inductive res (A : Type) := Ok (a : A) | Err (e : exn).
Arguments Ok {A} a.
Arguments Err {A} e.

Definition bind {A B} (x : res A) (f : A -> res B) : res B :=
  match x with Ok a => f a | Err e => Err e end.

Declare Scope py_scope.
Delimit Scope py_scope with py.
Notation "'do' x <- a ; b" := (bind a (fun x => b))
  (at level 200, x pattern, a at level 100, b at level 200) : py_scope.
Open Scope py_scope.

(* A Python [for] loop whose body may raise, threading a state. *)
Fixpoint foldM {A S} (f : S -> A -> res S) (s : S) (l : seq A) : res S :=
  match l with
  | [::] => Ok s
  | x :: l' => do s' <- f s x; foldM f s' l'
  end.

(* A Python list comprehension whose body may raise. *)
Fixpoint mapM {A B} (f : A -> res B) (l : seq A) : res (seq B) :=
  match l with
  | [::] => Ok [::]
  | x :: l' => do y <- f x; do ys <- mapM f l'; Ok (y :: ys)
  end.

(* [l[k]] on a Python list / tuple with a non-negative index. *)
Definition pyget {A} (l : seq A) (k : nat) : res A :=
  match ohead (drop k l) with Some x => Ok x | None => Err IndexError end.

(* [l[k] = x]. *)
Definition pyset {A} (l : seq A) (k : nat) (x : A) : res (seq A) :=
  if k < size l then Ok (take k l ++ x :: drop k.+1 l) else Err IndexError.
