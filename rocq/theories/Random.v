(* Model of the random constructors of tt_sketch/tensor.py (definitions only). *)
From Coq Require Import String Ascii NArith.
From mathcomp Require Import all_ssreflect all_algebra.
From Verif Require Import Py Nd Utils Tensor Rng.
Set Implicit Arguments. Unset Strict Implicit. Unset Printing Implicit Defensive.
Import GRing.Theory Num.Theory.
Local Open Scope ring_scope.

Section Random.
Variable R : rcfType.
Notation arr := (nd R).

(* ---- oracles ---- *)
(* gen s i k: the k-th standard normal value of default_rng(SeedSequence(s).spawn(threads)[i]) *)
Variable gen : N -> nat -> nat -> R.
(* multiprocessing.cpu_count() *)
Variable threads : nat.
(* state s k: the k-th word of SeedSequence(s).generate_state(m), k < m (it does not depend on
   m).  A seed None stands for fresh entropy; the seed here is the entropy really used. *)
Variable state : N -> nat -> N.
(* np.linalg.qr, reduced *)
Variable qr : arr -> res (arr * arr).
(* choice s m k: np.random.seed(s); np.random.choice(m, size=k, replace=False) *)
Variable choice : N -> nat -> nat -> res (seq nat).

(* core /= np.sqrt(n); for n = 0 the array is empty *)
Definition div_sqrt (a : arr) (n : nat) : arr :=
  Nd (nshape a) [seq x / Num.sqrt n%:R | x <- ndata a].

(* DenseTensor.random, tensor.py:180-182 *)
Definition dense_random (shape : seq nat) (seed : N) : tensor R :=
  Dense (random_normal gen threads shape seed).

(* SparseTensor.random, tensor.py:257-270 *)
Definition sparse_random (shape : seq nat) (nnz : nat) (seed : N) : res (tensor R) :=
  do flat <- choice seed (prods shape) nnz;
  let indices := [seq [seq nth 0%N (unravel shape p) k | p <- flat] | k <- iota 0 (size shape)] in
  Ok (Sparse shape indices (ndata (random_normal gen threads [:: nnz] seed))).

(* one core of TensorTrain.random, tensor.py:361-377 *)
Definition tt_random_core (orthog : bool) (norm_goal : string) (d : nat) (shape rank_augmented : seq nat)
  (seed : N) (i : nat) : res arr :=
  let r1 := nth 0%N rank_augmented i in
  let r2 := nth 0%N rank_augmented i.+1 in
  let n := nth 0%N shape i in
  let core := random_normal gen threads [:: (r1 * n)%N; r2] (state seed i) in
  do core <- (if orthog && (i < d.-1)%N then do QR <- qr core; Ok QR.1
              else if String.eqb norm_goal "norm-1" then Ok (div_sqrt core (r1 * n))
              else if String.eqb norm_goal "norm-preserve" then Ok (div_sqrt core r1)
              else Err ValueError);
  reshape core [:: r1; n; r2].

(* TensorTrain.random, tensor.py:323-379 *)
Definition tt_random (shape : seq nat) (rank : ttrank) (seed : N) (orthog : bool) (trim : option bool)
  (norm_goal : string) : res (seq arr) :=
  let d := size shape in
  let trim := if trim is Some t then t else orthog in
  if orthog && ~~ trim then Err ValueError else
  do rank <- process_tt_rank rank shape trim;
  let rank_augmented := 1%N :: rank ++ [:: 1%N] in
  mapM (tt_random_core orthog norm_goal d shape rank_augmented seed) (iota 0 d).

(* CPTensor.random, tensor.py:705-718 *)
Definition cp_random (shape : seq nat) (rank : nat) (seed : N) : seq arr :=
  [seq div_sqrt (random_normal gen threads [:: nth 0%N shape i; rank] (state seed i)) (nth 0%N shape i)
  | i <- iota 0 (size shape)].

(* TuckerTensor.random, tensor.py:792-816.  zip stops at the shorter of rank and shape. *)
Definition tucker_random (shape : seq nat) (rank : ttrank) (seed : N) : res (seq arr * arr) :=
  let d := size shape in
  let rank_tuple := match rank with RTuple rs => rs | RInt r => nseq d r end in
  let rank_tuple := [seq minn p.1 p.2 | p <- zip rank_tuple shape] in
  let core := random_normal gen threads rank_tuple (state seed 0) in
  do factors <- mapM (fun p : nat * (nat * N) =>
      let: (r, (n, sd)) := p in
      let U := random_normal gen threads [:: r; n] sd in
      do QR <- qr (tr U);
      Ok (tr QR.1))
    (zip rank_tuple (zip shape [seq state seed k | k <- iota 0 d]));
  Ok (factors, core).

(* What TensorTrainDRM builds its matrices from, tensor_train_drm.py:53-55; an exception
   (there is none when the rank has the right length, Prop_Random.v) is represented by the
   empty list *)
Definition drm_cores (shape rank : seq nat) (seed : N) : seq arr :=
  if tt_random shape (RTuple rank) seed false None "norm-preserve" is Ok cs then cs else [::].
End Random.
