(* Model of the generators and of [projector] in tt_sketch/utils.py (definitions only). *)
From Coq Require Import String Ascii.
From mathcomp Require Import all_ssreflect all_algebra.
From Verif Require Import Py Nd TensorNum.
Set Implicit Arguments. Unset Strict Implicit. Unset Printing Implicit Defensive.
Import GRing.Theory Num.Theory.
Local Open Scope ring_scope.

Section UtilsNum.
Variable R : rcfType.
Notation arr := (nd R).

(* np.arange(n) *)
Definition arange (n : nat) : arr := tab [:: n] (fun i => (nth 0%N i 0)%:R).

(* np.linspace(a, b, n): n equally spaced values, both ends included; [a] when n = 1 *)
Definition linspace (a b : R) (n : nat) : arr :=
  tab [:: n] (fun i => if (n <= 1)%N then a else a + (nth 0%N i 0)%:R * ((b - a) / n.-1%:R)).

(* the axes 0 and 1 exchanged *)
Definition swap01 (A : Type) (s : seq A) : seq A := if s is x :: y :: s' then y :: x :: s' else s.

(* np.meshgrid(x0, ..., x_{d-1}) of vectors, with numpy's default indexing='xy': the outputs have
   shape (n1, n0, n2, ...), output k varies along axis k, except that outputs 0 and 1 vary along
   axes 1 and 0 *)
Definition meshgrid (xs : seq arr) : seq arr :=
  [seq tab (swap01 [seq dim x 0 | x <- xs])
           (fun i => get (nth (Nd [::] [::]) xs k) [:: nth 0%N (swap01 i) k])
  | k <- iota 0 (size xs)].

(* np.array(l) / np.stack(l) of equally shaped arrays; np.array([]) has shape (0,) *)
Definition stacked (l : seq arr) : arr :=
  tab (size l :: (if l is x :: _ then nshape x else [::]))
      (fun i => if i is k :: i' then get (nth (Nd [::] [::]) l k) i' else 0).

(* np.sum(a, axis=0) *)
Definition sum_axis0 (a : arr) : arr :=
  tab (behead (nshape a)) (fun i => sumr (dim a 0) (fun k => get a (k :: i))).

(* an elementwise function *)
Definition nmap (f : R -> R) (a : arr) : arr := tab (nshape a) (fun i => f (get a i)).

(* hilbert_tensor, utils.py:20-24 *)
Definition hilbert_tensor (n_dims size : nat) : arr :=
  let grid := meshgrid (nseq n_dims (arange size)) in
  nmap (fun x => 1 / (x + 1)) (sum_axis0 (stacked grid)).

(* sqrt_tensor, utils.py:27-40.  np.stack of an empty list raises ValueError.
   X /= 0 yields nan in every entry (none if X is empty). *)
Definition sqrt_tensor (shape : seq nat) (a b : R) : res arr :=
  let vals := [seq linspace a b s | s <- shape] in
  if nilp (meshgrid vals) then Err ValueError
  else
    let grid := stacked (meshgrid vals) in
    let X := nmap (fun x => Num.sqrt `|x|) (sum_axis0 grid) in
    let nrm := Num.sqrt (sqnorm X) in
    if (nrm == 0) && ~~ nilp (ndata X) then Err NonFinite
    else Ok (nmap (fun x => x / nrm) X).

(* power_decay_tensor, utils.py:43-60: the first statement uses the name SeedSequence, whose
   import (utils.py:12) is commented out; the rest of the body is never reached *)
Definition power_decay_tensor (shape : seq nat) (pow : R) (seed : option nat) : res arr :=
  Err NameError.

(* projector, utils.py:112-118.  [pinv] is numpy.linalg.pinv *)
Variable pinv : arr -> res arr.
Definition projector (X : arr) (Y : option arr) : res arr :=
  let Y := odflt X Y in
  do YX <- matmul (tr Y) X;
  do G <- pinv YX;
  do XG <- matmul X G;
  matmul XG (tr Y).
End UtilsNum.
