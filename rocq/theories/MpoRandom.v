(* Model of MPO.random (tt_sketch/tt_gmres.py:103-120). *)
From mathcomp Require Import all_ssreflect all_algebra.
From Verif Require Import Py Nd Utils UtilsNum Tensor TensorNum.
Set Implicit Arguments. Unset Strict Implicit. Unset Printing Implicit Defensive.
Import GRing.Theory Num.Theory.
Local Open Scope ring_scope.

Section MpoRandom.
Variable R : rcfType.
Notation arr := (nd R).
(* normal k shape: the k-th call of np.random.normal(size=shape) in this run (the global
   generator, which MPO.random neither seeds nor resets) *)
Variable normal : nat -> seq nat -> arr.

(* tt_gmres.py:115-118.  [C += view of C]: NumPy buffers overlapping operands, so the old
   values of C are read.  For np.linalg.norm(C) = 0 the code divides by zero, giving a core of
   NaNs (and a warning); the model returns ZeroDivisionError instead of an array. *)
Definition mpo_random_core (C : arr) : res arr :=
  do Ct <- transpose C [:: 0; 2; 1; 3]%N;
  do Cv <- reshape Ct (nshape C);
  do Cs <- iadd C Cv;
  let nrm := nnorm Cs in
  if nrm == 0 then Err ZeroDivisionError
  else Ok (nmap (fun x => x * Num.sqrt (dim C 1 * dim C 2)%:R / nrm) Cs).

(* tt_gmres.py:103-120; zip stops at the shortest list *)
Definition mpo_random (rank : ttrank) (in_shape out_shape : seq nat) : res (seq arr) :=
  let prod_shape := [seq (p.1 * p.2)%N | p <- zip in_shape out_shape] in
  do rank <- process_tt_rank rank prod_shape true;
  mapM (fun p : nat * ((nat * nat) * (nat * nat)) =>
      let: (k, ((r1, s1), (s2, r2))) := p in
      mpo_random_core (normal k [:: r1; s1; s2; r2]))
    (zip (iota 0 (size prod_shape)) (zip (zip (1%N :: rank) in_shape) (zip out_shape (rank ++ [:: 1%N])))).
End MpoRandom.
