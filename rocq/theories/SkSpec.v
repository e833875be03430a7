(* Specification of the sketches, written with sums over multi-indices.  It mentions only the
   attributes of a DRM object (its class, cores, matrices, seed, rank window), the random
   number generators of Hash.v and the meaning [den] of a tensor. *)
From Coq Require Import String Ascii NArith.
From mathcomp Require Import all_ssreflect all_algebra.
From Verif Require Import Py Nd Utils Tensor Hash Sketch Spec.
Set Implicit Arguments. Unset Strict Implicit. Unset Printing Implicit Defensive.
Import GRing.Theory.
Local Open Scope ring_scope.

Section SkSpec.
Variable R : comRingType.
Variable to_normal : N -> R.
Notation tensor := (tensor R).
Notation drm := (drm R).

(* the mode sizes in the order in which the DRM processes them *)
Definition drm_dims (D : drm) : seq nat := if d_transpose D then rev (d_shape D) else d_shape D.

(* The DRM's sketching matrix number mu: its rows are indexed by the multi-indices of the
   first mu+1 modes (in the DRM's order), its columns by the rank window. *)
Definition drm_entry (D : drm) (mu : nat) (i : seq nat) (c : nat) : R :=
  let dims := take mu.+1 (drm_dims D) in
  let lo := nth 0%N (d_rank_min D) mu in
  let seed := mod63 (N.add (N.of_nat mu) (d_seed D)) in
  match d_class D with
  | TensorTrainDRM => chain (take mu.+1 (d_cores D)) i 0 (lo + c)
  | DenseGaussianDRM => get (nth (Nd [::] [::]) (d_mats D) mu) [:: c; ravel dims i]
  | SparseGaussianDRM => to_normal (frac (rand_word dims i (lo + c) (mod63 seed)))
  | SparseSignDRM =>        (* the row generated for this single coordinate *)
      let rank := nth 0%N (d_true_rank D) mu in
      match inds_to_sparse_sign [seq [:: k] | k <- i] dims rank 0 rank
                                (nth 0%N (d_nnz D) mu) seed with
      | Ok row => (get row [:: 0; lo + c]%N)%:~R
      | Err _ => 0
      end
  end.

(* Number of columns of that matrix *)
Definition drm_cols (D : drm) (mu : nat) : nat := nth 0%N (d_rank D) mu.

(* A left DRM sketches the first mu+1 modes, a right DRM the last d-1-mu modes, which it
   sees in reverse order *)
Definition left_fun (D : drm) (mu : nat) (i : seq nat) (c : nat) : R := drm_entry D mu i c.
Definition right_fun (E : drm) (d mu : nat) (j : seq nat) (c : nat) : R :=
  drm_entry E (d - mu.+2) (rev j) c.

(* Omega_mu = L^T X_(mu) R  for a left matrix f and a right matrix g *)
Definition Omega_of (f g : seq nat -> nat -> R) (s : seq nat) (x : seq nat -> R) (mu a b : nat) : R :=
  sum_idx (take mu.+1 s) (fun i => sum_idx (drop mu.+1 s) (fun j =>
    f i a * x (i ++ j) * g j b)).

(* Psi_mu = (L x I)^T X R  with f on the modes before mu and g on the modes after mu *)
Definition Psi_of (f g : seq nat -> nat -> R) (s : seq nat) (x : seq nat -> R) (mu a k b : nat) : R :=
  sum_idx (take mu s) (fun i => sum_idx (drop mu.+1 s) (fun j =>
    f i a * x (i ++ k :: j) * g j b)).

(* no modes: the empty product *)
Definition one_fun (i : seq nat) (c : nat) : R := 1.

(* ---- valid DRM objects ---- *)
Definition C0 : nd R := Nd [::] [::].       (* default for [nth] *)

(* the window attributes of the first n matrices *)
Definition win_ok (D : drm) (n : nat) : Prop :=
  [/\ (n <= size (d_rank_min D))%N, (n <= size (d_rank_max D))%N, (n <= size (d_rank D))%N &
   forall mu, (mu < n)%N -> (nth 0 (d_rank_min D) mu <= nth 0 (d_rank_max D) mu)%N /\
     nth 0%N (d_rank D) mu = (nth 0 (d_rank_max D) mu - nth 0 (d_rank_min D) mu)%N].

(* TensorTrainDRM: the cores form a chain with the mode sizes of the tensor, and the window
   does not exceed the ranks of the cores *)
Definition ttd_ok (D : drm) (dims : seq nat) (n : nat) : Prop :=
  [/\ (n <= size (d_cores D))%N, exists r, links 1 (take n (d_cores D)) r,
      [seq dim C 1 | C <- take n (d_cores D)] = take n dims,
      win_ok D n &
      forall mu, (mu < n)%N -> (nth 0 (d_rank_max D) mu <= dim (nth C0 (d_cores D) mu) 2)%N].

(* the window is the full range (the DRM was not produced by slicing) and ranks are positive *)
Definition unsliced (D : drm) (n : nat) : Prop := forall mu, (mu < n)%N ->
  [/\ nth 0%N (d_rank_min D) mu = 0%N, nth 0%N (d_rank_max D) mu = dim (nth C0 (d_cores D) mu) 2 &
      (0 < dim (nth C0 (d_cores D) mu) 2)%N].

(* DenseGaussianDRM: the stored matrices have the right shapes *)
Definition mats_ok (D : drm) (dims : seq nat) (n : nat) : Prop := (n <= size (d_mats D))%N /\
  forall mu, (mu < n)%N -> nwf (nth C0 (d_mats D) mu) /\
    nshape (nth C0 (d_mats D) mu) = [:: drm_cols D mu; prods (take mu.+1 dims)].

(* SparseSignDRM *)
Definition sign_ok (D : drm) (n : nat) : Prop :=
  [/\ (n <= size (d_true_rank D))%N, (n <= size (d_nnz D))%N, win_ok D n &
  forall mu, (mu < n)%N -> [/\ (nth 0 (d_rank_max D) mu <= nth 0 (d_true_rank D) mu)%N,
     (nth 0 (d_nnz D) mu <= nth 0 (d_true_rank D) mu)%N &
     N.lt (N.of_nat (nth 0%N (d_true_rank D) mu)) (N.pow 2 52)]].
(* none of the random words used for the coordinate [c] (in the DRM's mode order) is one of
   the few (a fraction rank/2^52) for which the rounding of C38 matters *)
Definition good_coord (D : drm) (dims c : seq nat) (n : nat) : Prop := forall mu j, (mu < n)%N ->
  (0 < j < nth 0 (d_nnz D) mu)%N ->
  N.lt (N.add (frac (rand_word (take mu.+1 dims) (take mu.+1 c) j
                               (mod63 (mod63 (N.add (N.of_nat mu) (d_seed D))))))
              (N.of_nat (nth 0%N (d_true_rank D) mu))) (N.pow 2 52).

Definition drm_valid (D : drm) (n : nat) : Prop :=
  match d_class D with
  | TensorTrainDRM => ttd_ok D (drm_dims D) n
  | DenseGaussianDRM => mats_ok D (drm_dims D) n
  | SparseGaussianDRM => win_ok D n
  | SparseSignDRM => sign_ok D n
  end.

(* a DRM object valid for its whole shape *)
Definition drm_good (D : drm) : Prop :=
  drm_valid D (size (d_shape D)).-1 /\ size (d_rank D) = (size (d_shape D)).-1.

(* TensorTrain.random(shape, rank, ...) returns a train of that shape and rank *)
Definition tt_random_ok (tt_random : seq nat -> seq nat -> N -> seq (nd R)) : Prop :=
  forall shape rank seed, (0 < size shape)%N -> size rank = (size shape).-1 ->
  let cs := tt_random shape rank seed in
  [/\ links 1 cs 1, [seq dim C 1 | C <- cs] = shape &
      [seq dim C 2 | C <- take (size cs).-1 cs] = rank].

(* ---- formats the DRM can sketch correctly ---- *)
Definition pos_ranks (cs : seq (nd R)) : bool :=
  all (fun C => (0 < dim C 0)%N && (0 < dim C 2)%N) cs.
(* one storage format *)
Definition fits1 (D : drm) (n : nat) (X : tensor) : Prop :=
  match d_class D, X with
  | TensorTrainDRM, (Sparse _ _ _ | TT _ | CP _) => True
  | TensorTrainDRM, (Dense _ | Tucker _ _) => unsliced D n
  | DenseGaussianDRM, (Sparse _ _ _ | Dense _) => True
  | DenseGaussianDRM, TT cs => pos_ranks cs
  | SparseGaussianDRM, Sparse _ _ _ => True
  | SparseSignDRM, Sparse _ inds vals => forall k, (k < size vals)%N ->
      good_coord D (drm_dims D) (if d_transpose D then rev (column inds k) else column inds k) n
  | _, _ => False
  end.
(* every summand of a (nested) sum *)
Fixpoint fits (D : drm) (n : nat) (X : tensor) : Prop :=
  match X with
  | TSum _ Xs => (fix go l := if l is x :: l' then fits D n x /\ go l' else True) Xs
  | _ => fits1 D n X
  end.
(* a tensor whose right contractions are in the same order for every format: dense and
   Tucker tensors of more than two modes are excluded (C22: see the counterexamples) *)
Fixpoint right_ok (X : tensor) : bool :=
  match X with
  | Dense a => (ndim a <= 2)%N
  | Tucker fs _ => (size fs <= 2)%N
  | TSum _ Xs => (fix go l := if l is x :: l' then right_ok x && go l' else true) Xs
  | _ => true
  end.
(* all summands are dense arrays *)
Fixpoint all_dense (X : tensor) : bool :=
  match X with
  | Dense _ => true
  | TSum _ Xs => (fix go l := if l is x :: l' then all_dense x && go l' else true) Xs
  | _ => false
  end.
(* the right matrix used for dense arrays: rows are taken in the C order of the modes, while
   the DRM numbers them in the C order of the reversed modes *)
Definition right_fun_dense (E : drm) (shape : seq nat) (mu : nat) (j : seq nat) (c : nat) : R :=
  let s := drop mu.+1 shape in
  drm_entry E (size shape - mu.+2) (unravel (rev s) (ravel s j)) c.

(* "s is the sketch of x (a function on multi-indices of shape [shape]) with left matrices
   f 0, f 1, ... of ranks lr and right matrices g 0, g 1, ... of ranks rr": sizes and every
   entry.  f mu acts on modes 0..mu, g mu on modes mu+1..d-1. *)
Definition at_left (A : Type) (f : nat -> A) (f0 : A) (mu : nat) : A := if mu is mu'.+1 then f mu' else f0.
Definition at_right (A : Type) (g : nat -> A) (g0 : A) (d mu : nat) : A := if (mu < d.-1)%N then g mu else g0.
Definition is_sketch_with (f g : nat -> seq nat -> nat -> R) (lr rr : nat -> nat)
   (shape : seq nat) (x : seq nat -> R) (s : container R) : Prop :=
  let d := size shape in
  [/\ size (Psi_cores s) = d, size (Omega_mats s) = d.-1,
      forall mu, (mu < d)%N -> let P := nth C0 (Psi_cores s) mu in
        let r1 := at_left lr 1%N mu in let r2 := at_right rr 1%N d mu in
        [/\ nwf P, nshape P = [:: r1; nth 0%N shape mu; r2] &
            forall a k b, (a < r1)%N -> (k < nth 0%N shape mu)%N -> (b < r2)%N ->
              get P [:: a; k; b] = Psi_of (at_left f one_fun mu) (at_right g one_fun d mu) shape x mu a k b]
    & forall mu, (mu < d.-1)%N -> let W := nth C0 (Omega_mats s) mu in
        [/\ nwf W, nshape W = [:: lr mu; rr mu] &
            forall a b, (a < lr mu)%N -> (b < rr mu)%N ->
              get W [:: a; b] = Omega_of (f mu) (g mu) shape x mu a b]].

(* the streaming sketch with left DRM D and right DRM E *)
Definition is_sketch (D E : drm) (shape : seq nat) (x : seq nat -> R) (s : container R) : Prop :=
  let d := size shape in
  is_sketch_with (left_fun D) (right_fun E d) (drm_cols D) (fun mu => drm_cols E (d - mu.+2)) shape x s.

(* ---- statements about pairs of DRMs ---- *)
(* a left and a right DRM for tensors of shape s *)
Definition pair_ok (D E : drm) (s : seq nat) : Prop :=
  [/\ d_shape D = s, d_shape E = s, d_transpose D = false /\ d_transpose E = true, drm_good D & drm_good E].

(* the two kinds of right matrices: [true] for right_ok tensors, [false] for dense ones *)
Definition gfam (o : bool) (E : drm) (s : seq nat) : nat -> seq nat -> nat -> R :=
  if o then right_fun E (size s) else right_fun_dense E s.
Definition order_ok (o : bool) (X : tensor) : bool := if o then right_ok X else all_dense X.
Definition is_sk (o : bool) (D E : drm) (s : seq nat) (x : seq nat -> R) (c : container R) : Prop :=
  is_sketch_with (left_fun D) (gfam o E s) (drm_cols D) (fun mu => drm_cols E (size s - mu.+2)) s x c.

(* one of the two ranks is larger at every bond *)
Definition strict_ranks (D E : drm) (d : nat) : Prop :=
  (forall mu, (mu < d.-1)%N -> drm_cols D mu < drm_cols E (d - mu.+2))%N \/
  (forall mu, (mu < d.-1)%N -> drm_cols E (d - mu.+2) < drm_cols D mu)%N.

(* array shapes of Omega_mu and Psi_mu *)
Definition sh2 (D E : drm) (mu : nat) : seq nat := [:: nth 0%N (d_rank D) mu; nth 0%N (rev (d_rank E)) mu].
Definition sh3 (D E : drm) (s : seq nat) (mu : nat) : seq nat :=
  [:: at_left (nth 0%N (d_rank D)) 1%N mu; nth 0%N s mu; at_right (nth 0%N (rev (d_rank E))) 1%N (size s) mu].

(* a container of the shapes of a sketch of a tensor of shape s with DRMs D, E *)
Definition shaped (D E : drm) (s : seq nat) (c : container R) : Prop :=
  (forall mu, (mu < (size s).-1)%N -> nwf (nth C0 (Omega_mats c) mu) /\ nshape (nth C0 (Omega_mats c) mu) = sh2 D E mu) /\
  (forall mu, (mu < size s)%N -> nwf (nth C0 (Psi_cores c) mu) /\ nshape (nth C0 (Psi_cores c) mu) = sh3 D E s mu).

(* formats for which D honours its rank window (C25): a TensorTrainDRM does not for dense and
   Tucker tensors *)
Fixpoint sliceable (D : drm) (X : tensor) : bool :=
  match X with
  | Dense _ | Tucker _ _ => if d_class D is TensorTrainDRM then false else true
  | TSum _ Xs => (fix go l := if l is x :: l' then sliceable D x && go l' else true) Xs
  | _ => true
  end.

End SkSpec.

(* ---- construction of DRMs ---- *)
(* conditions under which the constructor of class c succeeds and the object can be sliced:
   a DenseGaussianDRM draws its matrices from the seed argument, so it has to be given and
   below 2^32-1 (C25: see the counterexamples) *)
Definition new_args (c : drm_class) (rk : seq nat) (seed : option N) : Prop :=
  (c = DenseGaussianDRM -> if seed is Some s then N.ltb s seed_mod else false) /\
  (c = SparseSignDRM -> forall mu, (mu < size rk)%N -> N.lt (N.of_nat (nth 0%N rk mu)) (N.pow 2 52)).

(* rank slices of the d.-1 bonds, from 0 up to the full rank *)
Definition slices_ok (d : nat) (rk : seq nat) (ls : seq (seq nat)) : Prop :=
  [/\ (1 < size ls)%N, all (fun l => size l == d.-1) ls, head [::] ls = nseq d.-1 0%N, last [::] ls = rk &
   forall i mu, (i.+1 < size ls)%N -> (mu < d.-1)%N -> (nth 0 (nth [::] ls i) mu <= nth 0 (nth [::] ls i.+1) mu)%N].

(* the default classes of stream_sketch: the other side's class, else TensorTrainDRM *)
Definition lclass (lt rt : option drm_class) := first_some lt rt TensorTrainDRM.
Definition rclass (lt rt : option drm_class) := first_some rt (Some (lclass lt rt)) TensorTrainDRM.
Definition trim_if (b : bool) (shape rk : seq nat) := if b then trim_ranks shape rk else rk.

Section Made.
Variable R : comRingType.
Variable tt_random : seq nat -> seq nat -> N -> seq (nd R).
Variable stream : N -> nat -> R.
Variable offset : N -> nat -> N.
(* the DRM D was made by a call drm_type(rank, shape=shape, transpose=t, seed=seed); rk is the
   rank in tuple form *)
Definition made (t : bool) (shape rk : seq nat) (D : drm R) : Prop := exists c ent rank seed,
  [/\ process_tt_rank rank shape false = Ok rk, new_args c rk seed &
      drm_new tt_random stream offset c ent rank shape t seed = Ok D].
End Made.
