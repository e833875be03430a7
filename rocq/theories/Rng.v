(* Model of MultithreadedRNG and random_normal, utils.py:178-229 (definitions only). *)
From Coq Require Import NArith.
From mathcomp Require Import all_ssreflect.
From Verif Require Import Py Nd.
Set Implicit Arguments. Unset Strict Implicit. Unset Printing Implicit Defensive.

(* np.ceil(n / threads), utils.py:200.  Simplification: n / threads is a float division, which
   is exact enough for n < 2^53; integers are used here. *)
Definition rng_step (n threads : nat) : nat := (n + threads.-1) %/ threads.

(* The array range values[i*step : (i+1)*step] filled by task i (slices are cut off at n),
   utils.py:208-216 *)
Definition seg_first (n threads i : nat) : nat := minn (i * rng_step n threads) n.
Definition seg_size (n threads i : nat) : nat :=
  minn (i.+1 * rng_step n threads) n - seg_first n threads i.

(* ---- the concurrent execution of fill(), utils.py:203-218 ---- *)
(* Shared state: the number of tasks the main thread has submitted so far, for every task the
   number of values it has drawn from its own generator, and the array.  [writes] is a ghost
   log of the written positions, oldest first. *)
Record rng_state (R : Type) := RngState {
  submitted : nat;
  drawn : seq nat;
  values : seq R;
  writes : seq nat }.

Section Fill.
Variable R : Type.
(* gen i k: the k-th standard normal value of the i-th spawned generator *)
Variable gen : nat -> nat -> R.
Variables n threads : nat.

(* One atomic step.  Main: executor.submit of the next task (the pool has as many workers as
   tasks, so a submitted task may run at any time).  Worker i: draw one value and store it.
   The task order inside one worker is fixed; the interleaving is arbitrary. *)
Inductive rng_trans : rng_state R -> rng_state R -> Prop :=
| Submit st : submitted st < threads ->
    rng_trans st (RngState (submitted st).+1 (drawn st) (values st) (writes st))
| Draw st i : i < submitted st -> nth 0 (drawn st) i < seg_size n threads i ->
    let k := nth 0 (drawn st) i in
    let c := seg_first n threads i + k in
    rng_trans st (RngState (submitted st) (set_nth 0 (drawn st) i k.+1)
                           (set_nth (gen i k) (values st) c (gen i k)) (rcons (writes st) c)).

(* np.empty(n): arbitrary contents *)
Definition rng_init (garbage : seq R) : rng_state R := RngState 0 (nseq threads 0) garbage [::].
(* concurrent.futures.wait(futures) returns *)
Definition rng_final (st : rng_state R) : Prop :=
  submitted st = threads /\ forall i, i < threads -> nth 0 (drawn st) i = seg_size n threads i.

Inductive rng_steps : nat -> rng_state R -> rng_state R -> Prop :=
| Steps0 st : rng_steps 0 st st
| StepsS m st st1 st2 : rng_steps m st st1 -> rng_trans st1 st2 -> rng_steps m.+1 st st2.
End Fill.

(* random_normal(shape, seed), utils.py:224-229, as a function: what the array contains when
   fill() has returned (Prop_Rng.v: whatever the interleaving).  [gen seed i k]: the k-th value
   of default_rng(SeedSequence(seed).spawn(threads)[i]). *)
Definition random_normal (R : Type) (gen : N -> nat -> nat -> R) (threads : nat) (shape : seq nat) (seed : N) : nd R :=
  let n := prods shape in
  Nd shape [seq gen seed (c %/ rng_step n threads) (c %% rng_step n threads) | c <- iota 0 n].
