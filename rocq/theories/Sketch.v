(* Model of the sketching code (definitions only): tt_sketch/drm_base.py, tt_sketch/drm/*.py,
   tt_sketch/sketching_methods/*.py, tt_sketch/sketch_dispatch.py,
   tt_sketch/sketch_container.py and tt_sketch/sketch.py.
   Random number generators, Python's hash and LAPACK routines are parameters (oracles). *)
From Coq Require Import String Ascii NArith.
From mathcomp Require Import all_ssreflect all_algebra.
From Verif Require Import Py Nd Utils Tensor Hash.
Set Implicit Arguments. Unset Strict Implicit. Unset Printing Implicit Defensive.
Import GRing.Theory.
Local Open Scope ring_scope.

(* The concrete subclasses of DRM (drm/__init__.py:7) *)
Inductive drm_class := TensorTrainDRM | DenseGaussianDRM | SparseGaussianDRM | SparseSignDRM.

Definition drm_class_eqb (a b : drm_class) : bool :=
  match a, b with
  | TensorTrainDRM, TensorTrainDRM | DenseGaussianDRM, DenseGaussianDRM
  | SparseGaussianDRM, SparseGaussianDRM | SparseSignDRM, SparseSignDRM => true
  | _, _ => false
  end.

(* isinstance(drm, CanIncreaseRank): dense_gaussian_drm.py:18, sparse_gaussian_drm.py:11.
   Every class derives from CanSlice. *)
Definition can_increase (c : drm_class) : bool :=
  match c with DenseGaussianDRM | SparseGaussianDRM => true | _ => false end.

(* A DRM object: the attributes set in DRM.__init__ (drm_base.py:35-63) and by the
   subclasses ([cores], [sketching_mats], [nnz]; the ones a class does not have are empty) *)
Record drm (R : Type) := Drm {
  d_class : drm_class;
  d_shape : seq nat;
  d_transpose : bool;
  d_true_rank : seq nat;
  d_rank_min : seq nat;
  d_rank_max : seq nat;
  d_rank : seq nat;
  d_seed : N;
  d_cores : seq (nd R);
  d_mats : seq (nd R);
  d_nnz : seq nat }.

(* The value of a left/right contraction: an array, or for a TensorSum the tuple of the
   contractions of the summands (sketch_dispatch.py:147) *)
Inductive skt (R : Type) := Leaf (a : nd R) | Node (l : seq (skt R)).

(* SketchContainer, sketch_container.py:17-42 *)
Record container (R : Type) := Container {
  Psi_cores : seq (nd R);
  Omega_mats : seq (nd R);
  c_shape : seq nat;
  c_left_rank : seq nat;
  c_right_rank : seq nat }.

(* SketchedTensorTrain, sketch.py:232-244 *)
Record sketched (R : Type) := Sketched {
  sketch_ : container R;
  left_drm : drm R;
  right_drm : drm R }.

Inductive method := Streaming | Orthogonal | Hmt.   (* sketch_dispatch.py:196-199 *)

Section Sketch.
Variable R : comRingType.
Notation arr := (nd R).
Notation tensor := (tensor R).
Notation drm := (drm R).
Notation skt := (skt R).
Notation container := (container R).
Notation sketched := (sketched R).

(* ---- oracles ---- *)
(* scipy's ndtri applied to f / 2^52, see Hash.v *)
Variable to_normal : N -> R.
(* TensorTrain.random(shape, rank, seed, norm_goal="norm-preserve").cores *)
Variable tt_random : seq nat -> seq nat -> N -> seq arr.
(* np.random.seed(s); the stream of np.random.normal values (legacy generator: the
   stream does not depend on the requested size) *)
Variable stream : N -> nat -> R.
(* np.random.seed(s); hash(np.random.uniform(0, dim_prod)) *)
Variable offset : N -> nat -> N.
(* np.mod(seed + hash(str(d)), 2**32), sketch.py:132 and 210 *)
Variable right_seed_of : N -> nat -> N.
(* scipy.linalg.lstsq(A, B)[0] *)
Variable lstsq : arr -> arr -> res arr.
(* scipy.linalg.qr(A, mode="economic") *)
Variable qr_econ : arr -> res (arr * arr).

(* ------------------------------------------------------------------ *)
(* Construction of DRMs                                                *)

Definition seed_mod : N := 4294967295.     (* 2**32 - 1 *)

(* dense_gaussian_drm.py:326-347: one matrix; [raw] is the constructor argument seed
   (None: np.random.seed(None) draws fresh entropy, modelled by [ent]) *)
Definition dense_mat (raw : option N) (ent : nat -> N) (seed : N) (mu r dim_prod lo hi : nat)
  : res arr :=
  do off <- match raw with
            | Some s => if N.ltb s M32 then Ok (offset s dim_prod) else Err ValueError
            | None => Ok (ent mu.+1)
            end;
  let s := N.modulo (N.add seed off) seed_mod in
  Ok (slice_ax 0 lo hi (tab [:: r; dim_prod] (fun i =>
        stream s (nth 0%N i 0 * dim_prod + nth 0%N i 1)%N))).

Definition dense_mats (raw : option N) (ent : nat -> N) (seed : N)
   (true_rank shape_sketch rmin rmax : seq nat) : res (seq arr) :=
  mapM (fun mu =>
      do lo <- pyget rmin mu; do hi <- pyget rmax mu;
      dense_mat raw ent seed mu (nth 0%N true_rank mu) (prods (take mu.+1 shape_sketch)) lo hi)
    (iota 0 (minn (size true_rank) (size shape_sketch).-1)).

(* DRM.__init__ (drm_base.py:24-63) followed by the subclass constructor
   (tensor_train_drm.py:37-58, dense_gaussian_drm.py:26-57, sparse_gaussian_drm.py:19-27,
   sparse_sign_drm.py:20-32).  Ranks are natural numbers: a window with rank_max <
   rank_min has size 0 (a negative number in Python).  [ent] is the entropy used when no
   seed is given.  [nnz] is num_non_zero_per_row. *)
Definition drm_init (c : drm_class) (ent : nat -> N) (rank : ttrank) (shape : seq nat)
   (transpose : bool) (seed : option N) (rank_min rank_max true_rank : option (seq nat))
   (nnz : option (seq nat)) : res drm :=
  do rank <- process_tt_rank rank shape false;
  let true_rank := if true_rank is Some r then r else rank in
  let rank_min := if rank_min is Some r then r else nseq (size shape).-1 0%N in
  let rank_max := if rank_max is Some r then r else rank in
  let flip l := if transpose then rev l else l in
  let true_rank := flip true_rank in
  let rank_min := flip rank_min in
  let rank_max := flip rank_max in
  let drank := [seq (p.2 - p.1)%N | p <- zip rank_min rank_max] in
  let dseed := N.modulo (if seed is Some s then s else ent 0%N) seed_mod in
  let sshape := flip shape in
  match c with
  | TensorTrainDRM =>
      let cs := tt_random sshape true_rank dseed in
      Ok (Drm c shape transpose true_rank rank_min rank_max drank dseed
              (take (size cs).-1 cs) [::] [::])
  | DenseGaussianDRM =>
      do ms <- dense_mats seed ent dseed true_rank sshape rank_min rank_max;
      Ok (Drm c shape transpose true_rank rank_min rank_max drank dseed [::] ms [::])
  | SparseGaussianDRM =>
      Ok (Drm c shape transpose true_rank rank_min rank_max drank dseed [::] [::] [::])
  | SparseSignDRM =>
      Ok (Drm c shape transpose true_rank rank_min rank_max drank dseed [::] [::]
              (if nnz is Some k then k else true_rank))
  end.

(* drm_type(rank, transpose=..., shape=..., seed=...), sketch.py:115, 133, 191, 211 *)
Definition drm_new (c : drm_class) (ent : nat -> N) (rank : ttrank) (shape : seq nat)
   (transpose : bool) (seed : option N) : res drm :=
  drm_init c ent rank shape transpose seed None None None None.

(* CanSlice.slice, drm_base.py:92-109 (extra keyword arguments are not passed on) *)
Definition drm_slice (D : drm) (start_rank end_rank : seq nat) : res drm :=
  drm_init (d_class D) (fun _ => N0) (RTuple (d_rank D)) (d_shape D) (d_transpose D)
    (Some (d_seed D)) (Some start_rank) (Some end_rank)
    (Some (if d_transpose D then rev (d_true_rank D) else d_true_rank D)) None.

(* CanIncreaseRank.increase_rank, drm_base.py:118-119; AttributeError for other classes *)
Definition drm_increase_rank (D : drm) (new_rank : seq nat) : res drm :=
  if can_increase (d_class D) then
    drm_new (d_class D) (fun _ => N0) (RTuple new_rank) (d_shape D) (d_transpose D)
            (Some (d_seed D))
  else Err AttributeError.

(* DRM.T, drm_base.py:65-73 *)
Definition drm_T (D : drm) : drm :=
  Drm (d_class D) (d_shape D) (~~ d_transpose D) (rev (d_true_rank D)) (rev (d_rank_min D))
      (rev (d_rank_max D)) (rev (d_rank D)) (d_seed D) (d_cores D) (d_mats D) (d_nnz D).

(* ------------------------------------------------------------------ *)
(* The sketch_* methods.  A generator is modelled by the list of the first [n] values it
   yields (all loops below yield once per mode; [n] is len(shape) - 1 when the generator
   is exhausted).  Exceptions are those of the eager evaluation. *)

(* a loop carrying [lr_contract] (None before the first iteration) and yielding *)
Definition gen_loop (body : nat -> option arr -> res (arr * arr)) (n : nat) : res (seq arr) :=
  do r <- foldM (fun (st : option arr * seq arr) mu =>
                   do y <- body mu st.1; Ok (Some y.1, rcons st.2 y.2))
                (None, [::]) (iota 0 n);
  Ok r.2.

(* a[:, rank_min[mu]:rank_max[mu]] *)
Definition window (D : drm) (mu : nat) (a : arr) : res arr :=
  do lo <- pyget (d_rank_min D) mu; do hi <- pyget (d_rank_max D) mu;
  Ok (slice_ax 1 lo hi a).

(* TensorTrainDRM.sketch_sparse, tensor_train_drm.py:60-69 *)
Definition ttdrm_sparse (D : drm) (inds : seq (seq nat)) (n : nat) : res (seq arr) :=
  gen_loop (fun mu st =>
      do core <- pyget (d_cores D) mu;
      do row <- pyget inds mu;
      do core_slice <- take_ax 1 row core;
      do lr <- match st with
               | None => reshape core_slice (behead (nshape core_slice))
               | Some lr => einsum "ijk,ji->jk" [:: core_slice; lr]
               end;
      do m <- window D mu lr;
      Ok (lr, tr m)) n.

(* TensorTrainDRM.sketch_tt, tensor_train_drm.py:71-88 *)
Definition ttdrm_tt (D : drm) (cs : seq arr) (n : nat) : res (seq arr) :=
  gen_loop (fun mu st =>
      do tensor_core <- pyget cs mu;
      do drm_core <- pyget (d_cores D) mu;
      do lr <- match st with
               | None => einsum "ijk,ijl->kl" [:: tensor_core; drm_core]
               | Some lr => einsum "ij,ikl,jkm->lm" [:: lr; tensor_core; drm_core]
               end;
      do m <- window D mu lr;
      Ok (lr, m)) n.

(* TensorTrainDRM.sketch_cp, tensor_train_drm.py:90-107 *)
Definition ttdrm_cp (D : drm) (cs : seq arr) (n : nat) : res (seq arr) :=
  gen_loop (fun mu st =>
      do tensor_core <- pyget cs mu;
      do drm_core <- pyget (d_cores D) mu;
      do lr <- match st with
               | None => einsum "ij,lik->jk" [:: tensor_core; drm_core]
               | Some lr => einsum "ij,ki,jkl->il" [:: lr; tensor_core; drm_core]
               end;
      do m <- window D mu lr;
      Ok (lr, m)) n.

(* TensorTrainDRM.sketch_dense, tensor_train_drm.py:109-122 (the rank window is not used) *)
Definition ttdrm_dense (D : drm) (n : nat) : res (seq arr) :=
  gen_loop (fun mu st =>
      do core <- pyget (d_cores D) mu;
      do pc <- match st with
               | None => flat_lr core
               | Some pc => do c <- einsum "ij,jkl->ikl" [:: pc; core]; flat_lr c
               end;
      Ok (pc, tr pc)) n.

(* TensorTrainDRM.sketch_tucker, tensor_train_drm.py:124-145 *)
Definition ttdrm_tucker (D : drm) (fs : seq arr) (n : nat) : res (seq arr) :=
  gen_loop (fun mu st =>
      do core <- pyget (d_cores D) mu;
      do U <- pyget fs mu;
      do pc <- match st with
               | None =>
                   do c <- einsum "ijk,jl->ilk" [:: core; tr U];
                   do r0 <- pyget (d_rank D) 0;
                   reshape c [:: nth 0%N (tucker_rank fs) 0; r0]
               | Some pc =>
                   do core_reduced <- einsum "jkl,km->jml" [:: core; tr U];
                   do c <- einsum "ij,jml->iml" [:: pc; core_reduced];
                   flat_lr c
               end;
      Ok (pc, pc)) n.

(* DenseGaussianDRM.sketch_sparse, dense_gaussian_drm.py:59-67 *)
Definition dense_sparse (D : drm) (shape : seq nat) (inds : seq (seq nat)) (nnz n : nat)
  : res (seq arr) :=
  mapM (fun mu =>
      do js <- ravel_multi (take mu.+1 shape) (take mu.+1 inds) nnz;
      do m <- pyget (d_mats D) mu;
      take_ax 1 js m) (iota 0 n).

(* DenseGaussianDRM.sketch_tt, dense_gaussian_drm.py:69-75 *)
Definition dense_tt (D : drm) (cs : seq arr) (n : nat) : res (seq arr) :=
  do pcs <- partial_dense_lr cs;
  mapM (fun p => do m <- matmul p.1 p.2; Ok (tr m)) (take n (zip (d_mats D) pcs)).

(* np.mod(mu + self.seed, 2**63), sparse_gaussian_drm.py:34-36, sparse_sign_drm.py:39-41 *)
Definition sketch_seed (D : drm) (mu : nat) : N := mod63 (N.add (N.of_nat mu) (d_seed D)).

(* SparseGaussianDRM.sketch_sparse, sparse_gaussian_drm.py:29-44 *)
Definition gauss_sparse (D : drm) (shape : seq nat) (inds : seq (seq nat)) (n : nat)
  : res (seq arr) :=
  mapM (fun mu =>
      do lo <- pyget (d_rank_min D) mu; do hi <- pyget (d_rank_max D) mu;
      Ok (tr (inds_to_normal to_normal (take mu.+1 inds) (take mu.+1 shape) lo hi
                             (sketch_seed D mu)))) (iota 0 n).

(* an array of small integers as an array of floats *)
Definition of_ints (a : nd [ringType of int]) : arr := Nd (nshape a) [seq x%:~R | x <- ndata a].

(* SparseSignDRM.sketch_sparse, sparse_sign_drm.py:34-51 *)
Definition sign_sparse (D : drm) (shape : seq nat) (inds : seq (seq nat)) (n : nat)
  : res (seq arr) :=
  mapM (fun mu =>
      do tr_ <- pyget (d_true_rank D) mu;
      do lo <- pyget (d_rank_min D) mu; do hi <- pyget (d_rank_max D) mu;
      do nnz <- pyget (d_nnz D) mu;
      do m <- inds_to_sparse_sign (take mu.+1 inds) (take mu.+1 shape) tr_ lo hi nnz
                                  (sketch_seed D mu);
      Ok (tr (of_ints m))) (iota 0 n).

(* getattr(drm, DRM_SKETCH_METHOD_DISPATCH[type(tensor)]), sketch_dispatch.py:59-65 and
   150-153: AttributeError if the class has no such method *)
Definition leaf_sketch (D : drm) (X : tensor) (n : nat) : res (seq arr) :=
  match d_class D, X with
  | TensorTrainDRM, Sparse _ inds _ => ttdrm_sparse D inds n
  | TensorTrainDRM, TT cs => ttdrm_tt D cs n
  | TensorTrainDRM, CP cs => ttdrm_cp D cs n
  | TensorTrainDRM, Dense _ => ttdrm_dense D n
  | TensorTrainDRM, Tucker fs _ => ttdrm_tucker D fs n
  | DenseGaussianDRM, Sparse s inds vals => dense_sparse D s inds (size vals) n
  | DenseGaussianDRM, TT cs => dense_tt D cs n
  | DenseGaussianDRM, Dense _ => Ok (take n (d_mats D))
  | SparseGaussianDRM, Sparse s inds _ => gauss_sparse D s inds n
  | SparseSignDRM, Sparse s inds _ => sign_sparse D s inds n
  | _, _ => Err AttributeError
  end.
Definition has_method (D : drm) (X : tensor) : bool :=
  match d_class D, X with
  | TensorTrainDRM, TSum _ _ => false
  | TensorTrainDRM, _ => true
  | DenseGaussianDRM, (Sparse _ _ _ | TT _ | Dense _) => true
  | SparseGaussianDRM, Sparse _ _ _ => true
  | SparseSignDRM, Sparse _ _ _ => true
  | _, _ => false
  end.

(* handle_transpose, drm_base.py:122-145 *)
Definition wrapped_sketch (D : drm) (X : tensor) (n : nat) : res (seq arr) :=
  if ~~ has_method D X then Err AttributeError else
  if d_shape D != tshape X then Err ValueError else
  do Y <- (if d_transpose D then tT X else Ok X);
  do l <- leaf_sketch D Y n;
  Ok (if d_transpose D then rev l else l).

(* get_sketch_method(tensor, drm)(tensor), sketch_dispatch.py:142-157; for a sum one value
   of every summand's generator per step (RuntimeError if one of them is exhausted) *)
Fixpoint sketch_upto (D : drm) (n : nat) (X : tensor) : res (seq skt) :=
  match X with
  | TSum s Xs =>
      do Ls <- (fix go l := match l with
                | [::] => Ok [::]
                | x :: l' => do y <- sketch_upto D n x; do ys <- go l'; Ok (y :: ys)
                end) Xs;
      if all (fun L => (n <= size L)%N) Ls
      then Ok [seq Node [seq nth (Leaf (Nd [::] [::])) L mu | L <- Ls] | mu <- iota 0 n]
      else Err RuntimeError
  | _ => do l <- wrapped_sketch D X n; Ok (map (@Leaf R) l)
  end.
Definition sketch_all (D : drm) (X : tensor) : res (seq skt) :=
  sketch_upto D (size (tshape X)).-1 X.

(* ------------------------------------------------------------------ *)
(* Omega: OMEGA_METHODS, sketch_dispatch.py:68-108                      *)

Definition leaf_arr (s : skt) : res arr := if s is Leaf a then Ok a else Err TypeError.
(* entries as a one-dimensional array *)
Definition vec (v : seq R) : arr := Nd [:: size v] v.

Definition omega_leaf (X : tensor) (mu : nat) (L Rt : arr) : res arr :=
  match X with
  | TT _ | CP _ => matmul (tr L) Rt                 (* tensor_train_sketch.py:8, cp_sketch.py:6 *)
  | Sparse _ _ vals =>                              (* sparse_sketch.py:39-46 *)
      do m <- nmul L (vec vals); matmul m (tr Rt)
  | Dense a =>                                      (* dense_sketch.py:7-16 *)
      do X_mat <- matricize a (iota 0 mu.+1) true;
      do m <- matmul L X_mat; matmul m (tr Rt)
  | Tucker _ core =>                                (* tucker_sketch.py:9-19 *)
      do core_mat <- matricize core (iota 0 mu.+1) true;
      do m <- matmul (tr L) core_mat; matmul m Rt
  | TSum _ _ => Err TypeError
  end.

Fixpoint omega (X : tensor) (mu : nat) (omega_shape : seq nat) (L Rt : skt) : res arr :=
  match X with
  | TSum _ Xs =>                                    (* sketch_dispatch.py:85-105 *)
      match L, Rt with
      | Node ls, Node rs =>
          (fix go acc xs ls rs := match xs, ls, rs with
            | x :: xs', l :: ls', r :: rs' =>
                do w <- omega x mu omega_shape l r; do acc' <- iadd acc w; go acc' xs' ls' rs'
            | _, _, _ => Ok acc
            end) (zeros R omega_shape) Xs ls rs
      | _, _ => Err TypeError
      end
  | _ => do l <- leaf_arr L; do r <- leaf_arr Rt; omega_leaf X mu l r
  end.

(* ------------------------------------------------------------------ *)
(* Psi: PSI_METHODS, sketch_dispatch.py:76-139                          *)

(* tensor_train_sketch.py:14-35 *)
Definition psi_tt (cs : seq arr) (mu : nat) (L Rt : option arr) : res arr :=
  do C <- pyget cs mu;
  match L, Rt with
  | None, Some r => einsum "ijk,kl->ijl" [:: C; r]
  | Some l, None => einsum "ij,jkl->ikl" [:: tr l; C]
  | Some l, Some r => einsum "ij,jkl,lm->ikm" [:: tr l; C; r]
  | None, None => Err TypeError
  end.

(* cp_sketch.py:12-36 *)
Definition psi_cp (cs : seq arr) (mu : nat) (L Rt : option arr) : res arr :=
  do C <- pyget cs mu;
  match L, Rt with
  | None, Some r => do P <- einsum "ji,il->jl" [:: C; r]; reshape P (1%N :: nshape P)
  | Some l, None => do P <- einsum "il,kl->ik" [:: tr l; C]; reshape P (rcons (nshape P) 1%N)
  | Some l, Some r => einsum "ij,kj,jm->ikm" [:: tr l; C; r]
  | None, None => Err TypeError
  end.

(* dense_sketch.py:19-52 *)
Definition psi_dense (a : arr) (mu : nat) (L Rt : option arr) : res arr :=
  match L, Rt with
  | None, Some r =>
      do M <- matricize a [:: 0%N] true; do P <- matmul M (tr r); reshape P (1%N :: nshape P)
  | Some l, None =>
      do M <- matricize a [:: (ndim a).-1] true; do P <- matmul l (tr M);
      reshape P (rcons (nshape P) 1%N)
  | Some l, Some r =>
      do T <- matricize a (iota 0 mu.+1) false;
      do T3 <- reshape T [:: prods (take mu (nshape T)); nth 0%N (nshape T) mu;
                             nth 0%N (nshape T) mu.+1];
      einsum "ij,jkl,ml->ikm" [:: l; T3; r]
  | None, None => Err TypeError
  end.

(* tucker_sketch.py:22-46 *)
Definition psi_tucker (fs : seq arr) (core : arr) (mu : nat) (L Rt : option arr) : res arr :=
  do U <- pyget fs mu;
  let left_dim := if L is Some l then dim l 0 else 1%N in
  let right_dim := if Rt is Some r then dim r 0 else 1%N in
  do core3 <- reshape core [:: left_dim; nth 0%N (tucker_rank fs) mu; right_dim];
  do P <- match L, Rt with
          | None, Some r => einsum "ijk,kl->ijl" [:: core3; r]
          | Some l, None => einsum "ij,jkl->ikl" [:: tr l; core3]
          | Some l, Some r => einsum "ij,jkl,lm->ikm" [:: tr l; core3; r]
          | None, None => Err TypeError
          end;
  einsum "ijk,jl->ilk" [:: P; U].

(* sparse_sketch.py:8-36, _Psi_core_slice; [msk] lists the positions where mask is True *)
Definition psi_core_slice (inds : seq (seq nat)) (vals : seq R) (L Rt : option arr) (mu j : nat)
  : res arr :=
  do row <- pyget inds mu;
  let msk := [seq k <- iota 0 (size row) | nth 0%N row k == j] in
  let ev := vec [seq nth 0 vals k | k <- msk] in
  if mu == 0%N then
    match Rt with
    | None => Err ValueError
    | Some r => do rm <- take_ax 1 msk r; do P <- matmul ev (tr rm);
                reshape P [:: 1%N; prods (nshape P)]
    end
  else if mu == (size inds).-1 then
    match L with
    | None => Err ValueError
    | Some l => do lm <- take_ax 1 msk l; do P <- matmul lm ev;
                reshape P [:: prods (nshape P); 1%N]
    end
  else match L, Rt with
    | Some l, Some r =>
        do lm <- take_ax 1 msk l; do rm <- take_ax 1 msk r;
        do m <- nmul lm ev; matmul m (tr rm)
    | _, _ => Err ValueError
    end.

(* Psi[:, j, :] = S (S is broadcast to the shape of the slice) *)
Definition set_mid (P : arr) (j : nat) (S0 : arr) : res arr :=
  let sl := [:: dim P 0; dim P 2] in
  if bcast sl (nshape S0) == Some sl then
    Ok (tab (nshape P) (fun i => if nth 0%N i 1 == j
          then getb S0 [:: nth 0%N i 0; nth 0%N i 2] else get P i))
  else Err ValueError.

(* sparse_sketch.py:49-69 *)
Definition psi_sparse (inds : seq (seq nat)) (vals : seq R) (mu : nat) (psi_shape : seq nat)
   (L Rt : option arr) : res arr :=
  foldM (fun P j => do S0 <- psi_core_slice inds vals L Rt mu j; set_mid P j S0)
    (zeros R psi_shape) (iota 0 (nth 0%N psi_shape 1)).

Definition oleaf_arr (S0 : option skt) : res (option arr) :=
  if S0 is Some s then do a <- leaf_arr s; Ok (Some a) else Ok None.

Definition psi_leaf (X : tensor) (mu : nat) (psi_shape : seq nat) (L Rt : option arr) : res arr :=
  match X with
  | Dense a => psi_dense a mu L Rt
  | Sparse _ inds vals => psi_sparse inds vals mu psi_shape L Rt
  | TT cs => psi_tt cs mu L Rt
  | CP cs => psi_cp cs mu L Rt
  | Tucker fs core => psi_tucker fs core mu L Rt
  | TSum _ _ => Err TypeError
  end.

(* (None,) * tensor.num_summands, or the tuple itself: sketch_dispatch.py:120-123 *)
Definition spread (n : nat) (S0 : option skt) : res (seq (option skt)) :=
  match S0 with
  | None => Ok (nseq n None)
  | Some (Node l) => Ok (map Some l)
  | Some (Leaf _) => Err TypeError
  end.

Fixpoint psi (X : tensor) (mu : nat) (psi_shape : seq nat) (L Rt : option skt) : res arr :=
  match X with
  | TSum _ Xs =>                                    (* sketch_dispatch.py:111-136 *)
      do ls <- spread (size Xs) L; do rs <- spread (size Xs) Rt;
      (fix go acc xs ls rs := match xs, ls, rs with
        | x :: xs', l :: ls', r :: rs' =>
            do w <- psi x mu psi_shape l r; do acc' <- iadd acc w; go acc' xs' ls' rs'
        | _, _, _ => Ok acc
        end) (zeros R psi_shape) Xs ls rs
  | _ => do l <- oleaf_arr L; do r <- oleaf_arr Rt; psi_leaf X mu psi_shape l r
  end.

(* ------------------------------------------------------------------ *)
(* utils.py:98-109 *)
Definition right_mul_pinv (A B : arr) : res arr := do S0 <- lstsq (tr B) (tr A); Ok (tr S0).
Definition left_mul_pinv (A B : arr) : res arr := lstsq A B.

(* orth_step, sketch_dispatch.py:160-174 *)
Definition orth_step (Psi : arr) (Omega : option arr) : res arr :=
  let final_right_rank := if Omega is Some W then dim W 0 else dim Psi 2 in
  do M <- reshape Psi [:: (dim Psi 0 * dim Psi 1)%N; dim Psi 2];
  do M' <- (if Omega is Some W then right_mul_pinv M W else Ok M);
  do QR <- qr_econ M';
  reshape QR.1 [:: dim Psi 0; dim Psi 1; final_right_rank].

(* OrthogTTDRM, sketch_dispatch.py:177-193: a left TensorTrainDRM whose cores are appended
   one at a time, with a running generator.  Simplification: the generator's next value
   after mu cores have been added is recomputed from those mu cores. *)
Definition orthog_drm (rank shape : seq nat) (cores : seq arr) : drm :=
  Drm TensorTrainDRM shape false rank (nseq (size shape).-1 0%N) rank rank N0 cores [::] [::].
Definition orthog_next (rank : seq nat) (X : tensor) (cores : seq arr) : res skt :=
  do l <- sketch_upto (orthog_drm rank (tshape X) cores) (size cores) X;
  pyget l (size cores).-1.

(* SketchContainer(Psi_cores, Omega_mats), sketch_container.py:28-48 *)
Definition mk_container (Psis Omegas : seq arr) : container :=
  Container Psis Omegas [seq dim P 1 | P <- Psis] [seq dim P 0 | P <- behead Psis]
            [seq dim P 2 | P <- take (size Psis).-1 Psis].

(* general_sketch, sketch_dispatch.py:202-275 *)
Definition psi_step (X : tensor) (m : method) (lrank rrank : seq nat) (lc rc : seq skt)
   (Omegas : seq arr) (Psis : seq arr) (mu : nat) : res (seq arr) :=
  let d := size (tshape X) in
  do lr <- (if (0 < mu)%N then
              do l <- match m with
                      | Streaming => pyget lc mu.-1
                      | _ => orthog_next lrank X Psis
                      end;
              do r1 <- pyget lrank mu.-1; Ok (Some l, r1)
            else Ok (None, 1%N));
  do rr <- (if (mu < d.-1)%N then
              do r <- pyget rc mu; do r2 <- pyget (rev rrank) mu; Ok (Some r, r2)
            else Ok (None, 1%N));
  do P <- psi X mu [:: lr.2; nth 0%N (tshape X) mu; rr.2] lr.1 rr.1;
  do P' <- (if (mu < d.-1)%N then
              match m with
              | Streaming => Ok P
              | Orthogonal => do W <- pyget Omegas mu; orth_step P (Some W)
              | Hmt => orth_step P None
              end
            else Ok P);
  Ok (rcons Psis P').

Definition general_sketch (X : tensor) (left : option drm) (right : drm) (m : method)
  : res container :=
  let d := size (tshape X) in
  do lc <- match m, left with
           | Hmt, _ => Ok [::]
           | _, None => Err ValueError
           | _, Some D => sketch_all D X
           end;
  do rc <- sketch_all right X;
  let ldrm := if left is Some D then D else drm_T right in
  do Omegas <- match m with
               | Hmt => Ok [::]
               | _ => mapM (fun mu =>
                   do l <- pyget lc mu; do r <- pyget rc mu;
                   do r1 <- pyget (d_rank ldrm) mu; do r2 <- pyget (rev (d_rank right)) mu;
                   omega X mu [:: r1; r2] l r) (iota 0 d.-1)
               end;
  do Psis <- foldM (psi_step X m (d_rank ldrm) (d_rank right) lc rc Omegas) [::] (iota 0 d);
  Ok (mk_container Psis Omegas).

(* ------------------------------------------------------------------ *)
(* sketch_container.py                                                 *)

(* 50-65 *)
Definition container_zero (shape lrank rrank : seq nat) : container :=
  Container [seq zeros R [:: p.1.1; p.1.2; p.2] | p <- zip (zip (1%N :: lrank) shape) (rcons rrank 1%N)]
            [seq zeros R [:: p.1; p.2] | p <- zip lrank rrank] shape lrank rrank.

(* 67-75 *)
Definition container_add (a b : container) : res container :=
  do Ps <- mapM (fun p => nadd p.1 p.2) (zip (Psi_cores a) (Psi_cores b));
  do Os <- mapM (fun p => nadd p.1 p.2) (zip (Omega_mats a) (Omega_mats b));
  Ok (mk_container Ps Os).

(* 77-81 *)
Definition container_T (a : container) : res container :=
  do Ps <- mapM (fun P => transpose P [:: 2; 1; 0]%N) (rev (Psi_cores a));
  Ok (mk_container Ps [seq tr W | W <- rev (Omega_mats a)]).

(* 83-86: new_Psi_cores is read before it is assigned *)
Definition container_mul (a : container) (c : R) : res container := Err UnboundLocalError.
Definition container_neg (a : container) : res container := container_mul a (-1).  (* 88-89 *)
Definition container_sub (a b : container) : res container :=                      (* 91-92 *)
  do b' <- container_neg b; container_add a b'.

(* ------------------------------------------------------------------ *)
(* assemble_sketched_tt, sketch.py:400-443                              *)

Inductive direction := Auto | DirLeft | DirRight.

(* np.all(np.array(a) > np.array(b)) for two tuples; ValueError if they do not broadcast *)
Definition bcast_tuples (a b : seq nat) : res (seq (nat * nat)) :=
  if size a == size b then Ok (zip a b)
  else if size a == 1%N then Ok [seq (head 0%N a, y) | y <- b]
  else if size b == 1%N then Ok [seq (x, head 0%N b) | x <- a] else Err ValueError.
Definition all_gt (a b : seq nat) : res bool :=
  do l <- bcast_tuples a b; Ok (all (fun p => p.2 < p.1)%N l).

Definition assemble (s : container) (dir : direction) : res (seq arr) :=
  do dir <- match dir with
            | Auto => do g <- all_gt (c_left_rank s) (c_right_rank s);
                      Ok (if g then DirLeft else DirRight)
            | d => Ok d
            end;
  match dir with
  | DirLeft =>
      do P0 <- pyget (Psi_cores s) 0;
      do cs <- mapM (fun p => let: (P, W) := p in
          do M <- reshape P [:: dim P 0; (dim P 1 * dim P 2)%N];
          do M' <- left_mul_pinv W M;
          reshape M' [:: dim W 1; dim P 1; dim P 2])
        (zip (behead (Psi_cores s)) (Omega_mats s));
      Ok (P0 :: cs)
  | _ =>
      do cs <- mapM (fun p => let: (P, W) := p in
          do M <- reshape P [:: (dim P 0 * dim P 1)%N; dim P 2];
          do M' <- right_mul_pinv M W;
          reshape M' [:: dim P 0; dim P 1; dim W 0])
        (zip (take (size (Psi_cores s)).-1 (Psi_cores s)) (Omega_mats s));
      do Pd <- pyget (Psi_cores s) (size (Psi_cores s)).-1;
      Ok (rcons cs Pd)
  end.

(* ------------------------------------------------------------------ *)
(* The entry points of sketch.py                                       *)

(* np.array(rank): an int is a scalar, which broadcasts *)
Definition rank_gt (a b : ttrank) : res bool :=
  match a, b with
  | RInt x, RInt y => Ok (y < x)%N
  | RInt x, RTuple l => Ok (all (fun y => y < x)%N l)
  | RTuple l, RInt y => Ok (all (fun x => y < x)%N l)
  | RTuple k, RTuple l => all_gt k l
  end.

(* [tuple != rank argument] *)
Definition rank_is (t : seq nat) (r : ttrank) : bool := if r is RTuple l then t == l else false.

Definition first_some (A : Type) (a b : option A) (c : A) : A :=
  match a, b with Some x, _ => x | None, Some y => y | None, None => c end.

(* [ent] supplies the seed when none is given, and the entropy of the DRM constructors.
   The common part of stream_sketch (179-219) and orthogonal_sketch (105-141): construct or
   check the two DRMs. *)
Definition make_drms (shape : seq nat) (left_rank right_rank : ttrank) (seed : option N)
   (ltype rtype : option drm_class) (left right : option drm) (ent : nat -> N)
   (trim_left trim_right : bool) : res (drm * drm) :=
  let d := size shape in
  let seed := if seed is Some s then s else ent 0%N in
  do lt <- match left with
           | None =>
               let t := first_some ltype rtype TensorTrainDRM in
               do lrk <- process_tt_rank left_rank shape trim_left;
               do D <- drm_new t ent (RTuple lrk) shape false (Some seed);
               Ok (D, Some t)
           | Some D => if rank_is (d_rank D) left_rank then Ok (D, ltype) else Err ValueError
           end;
  do r <- match right with
          | None =>
              let t := first_some rtype lt.2 TensorTrainDRM in
              do rrk <- process_tt_rank right_rank shape trim_right;
              drm_new t ent (RTuple rrk) shape true (Some (right_seed_of seed d))
          | Some D => if rank_is (rev (d_rank D)) right_rank then Ok D else Err ValueError
          end;
  Ok (lt.1, r).

(* stream_sketch, sketch.py:154-229 *)
Definition stream_sketch (X : tensor) (left_rank right_rank : ttrank) (seed : option N)
   (ltype rtype : option drm_class) (left right : option drm) (ent : nat -> N) : res sketched :=
  do lbig <- rank_gt left_rank right_rank;
  do rbig <- rank_gt right_rank left_rank;
  if ~~ lbig && ~~ rbig then Err ValueError else
  do lr <- make_drms (tshape X) left_rank right_rank seed ltype rtype left right ent rbig lbig;
  do s <- general_sketch X (Some lr.1) lr.2 Streaming;
  Ok (Sketched s lr.1 lr.2).

(* orthogonal_sketch, sketch.py:81-151 *)
Definition orthogonal_sketch (X : tensor) (left_rank right_rank : ttrank) (seed : option N)
   (ltype rtype : option drm_class) (left right : option drm) (ent : nat -> N) : res (seq arr) :=
  do rbig <- rank_gt right_rank left_rank;
  if ~~ rbig then Err ValueError else
  do lr <- make_drms (tshape X) left_rank right_rank seed ltype rtype left right ent true false;
  do s <- general_sketch X (Some lr.1) lr.2 Orthogonal;
  Ok (Psi_cores s).

(* hmt_sketch, sketch.py:44-78; with return_drm=True the name right_drm is undefined *)
Definition hmt_sketch (X : tensor) (rank : ttrank) (seed : option N) (type : option drm_class)
   (given : option drm) (return_drm : bool) (ent : nat -> N) : res (seq arr) :=
  let seed := if seed is Some s then s else ent 0%N in
  do D <- match given with
          | None =>
              do rk <- process_tt_rank rank (tshape X) true;
              drm_new (if type is Some t then t else TensorTrainDRM) ent (RTuple rk) (tshape X)
                      true (Some seed)
          | Some D => if rank_is (rev (d_rank D)) rank then Ok D else Err ValueError
          end;
  do s <- general_sketch X None D Hmt;
  if return_drm then Err NameError else Ok (Psi_cores s).

(* ---- SketchedTensorTrain, sketch.py:246-361 ---- *)
Definition stt_left_rank (S0 : sketched) : seq nat := d_rank (left_drm S0).
Definition stt_right_rank (S0 : sketched) : seq nat := rev (d_rank (right_drm S0)).
Definition stt_shape (S0 : sketched) : seq nat := c_shape (sketch_ S0).          (* 268-269 *)
Definition stt_to_tt (S0 : sketched) : res (seq arr) := assemble (sketch_ S0) Auto.  (* 279-280 *)
Definition stt_T (S0 : sketched) : res sketched :=                              (* 274-277 *)
  do s <- container_T (sketch_ S0); Ok (Sketched s (drm_T (right_drm S0)) (drm_T (left_drm S0))).
Definition stt_add (S0 : sketched) (Y : tensor) : res sketched :=               (* 292-301 *)
  do o <- stream_sketch Y (RTuple (stt_left_rank S0)) (RTuple (stt_right_rank S0)) None None None
            (Some (left_drm S0)) (Some (right_drm S0)) (fun _ => N0);
  do s <- container_add (sketch_ S0) (sketch_ o);
  Ok (Sketched s (left_drm S0) (right_drm S0)).
Definition stt_mul (S0 : sketched) (c : R) : res sketched :=                    (* 355-358 *)
  do s <- container_mul (sketch_ S0) c; Ok (Sketched s (left_drm S0) (right_drm S0)).
Definition stt_size (S0 : sketched) : nat :=                                    (* 258-262 *)
  (sumn [seq prods (nshape P) | P <- Psi_cores (sketch_ S0)] +
   sumn [seq prods (nshape W) | W <- Omega_mats (sketch_ S0)])%N.

(* ---- blocked sketches ---- *)
(* consecutive pairs: zip(l[:-1], l[1:]) *)
Definition consecutive (l : seq (seq nat)) : seq (seq nat * seq nat) := zip l (behead l).

(* _blocked_stream_sketch_components, sketch.py:364-397; the dictionary is the list of its
   items in insertion order *)
Definition blocked_components (X : tensor) (left right : drm) (ls rs : seq (seq nat))
   (excluded : seq (nat * nat)) : res (seq (nat * nat * container)) :=
  do bl <- mapM (fun p => drm_slice left p.1 p.2) (consecutive ls);
  do br <- mapM (fun p => drm_slice right p.1 p.2) (consecutive rs);
  do bs <- mapM (fun ij =>
      do l <- pyget bl ij.1; do r <- pyget br ij.2;
      do s <- general_sketch X (Some l) r Streaming; Ok (ij, s))
    [seq ij <- [seq (i, j) | i <- iota 0 (size bl), j <- iota 0 (size br)] | ij \notin excluded];
  Ok bs.

(* P[l1:l2, :, r1:r2] = Q and W[l1:l2, r1:r2] = Q (Q is broadcast to the slice) *)
Definition set_block3 (P : arr) (l1 l2 r1 r2 : nat) (Q : arr) : res arr :=
  let l2 := minn l2 (dim P 0) in let r2 := minn r2 (dim P 2) in
  let sl := [:: l2 - l1; dim P 1; r2 - r1]%N in
  if bcast sl (nshape Q) == Some sl then
    Ok (tab (nshape P) (fun i =>
      if (l1 <= nth 0%N i 0 < l2)%N && (r1 <= nth 0%N i 2 < r2)%N
      then getb Q [:: (nth 0%N i 0 - l1)%N; nth 0%N i 1; (nth 0%N i 2 - r1)%N] else get P i))
  else Err ValueError.
Definition set_block2 (W : arr) (l1 l2 r1 r2 : nat) (Q : arr) : res arr :=
  let l2 := minn l2 (dim W 0) in let r2 := minn r2 (dim W 1) in
  let sl := [:: l2 - l1; r2 - r1]%N in
  if bcast sl (nshape Q) == Some sl then
    Ok (tab (nshape W) (fun i =>
      if (l1 <= nth 0%N i 0 < l2)%N && (r1 <= nth 0%N i 1 < r2)%N
      then getb Q [:: (nth 0%N i 0 - l1)%N; (nth 0%N i 1 - r1)%N] else get W i))
  else Err ValueError.

(* _assemble_blocked_stream_sketches, sketch.py:446-473: the body for one dictionary item *)
Definition put_block (ls rs : seq (seq nat)) (S0 : container) (b : nat * nat * container)
  : res container :=
  let: (i, j, blk) := b in
  do li <- pyget ls i; do li1 <- pyget ls i.+1;
  do rj <- pyget rs j; do rj1 <- pyget rs j.+1;
  let l1 := 0%N :: li in let l2 := 1%N :: li1 in
  let r1 := rcons rj 0%N in let r2 := rcons rj1 1%N in
  do Ps <- foldM (fun Ps mP =>
      let: (mu, Q) := mP in
      do P <- pyget Ps mu;
      do a <- pyget l1 mu; do b <- pyget l2 mu; do c <- pyget r1 mu; do e <- pyget r2 mu;
      do P' <- set_block3 P a b c e Q; pyset Ps mu P')
    (Psi_cores S0) (zip (iota 0 (size (Psi_cores blk))) (Psi_cores blk));
  do Os <- foldM (fun Os mW =>
      let: (mu, Q) := mW in
      do W <- pyget Os mu;
      do a <- pyget l1 mu.+1; do b <- pyget l2 mu.+1; do c <- pyget r1 mu; do e <- pyget r2 mu;
      do W' <- set_block2 W a b c e Q; pyset Os mu W')
    (Omega_mats S0) (zip (iota 0 (size (Omega_mats blk))) (Omega_mats blk));
  Ok (Container Ps Os (c_shape S0) (c_left_rank S0) (c_right_rank S0)).

Definition assemble_blocked (ls rs : seq (seq nat)) (shape : seq nat)
   (bs : seq (nat * nat * container)) : res container :=
  match ls, rs with
  | _ :: _, _ :: _ =>
      foldM (put_block ls rs) (container_zero shape (last [::] ls) (last [::] rs)) bs
  | _, _ => Err IndexError
  end.

(* blocked_stream_sketch, sketch.py:493-525 (every class is CanSlice) *)
Definition blocked_stream_sketch (X : tensor) (left right : drm) (ls rs : seq (seq nat))
  : res container :=
  do bs <- blocked_components X left right ls rs [::];
  assemble_blocked ls rs (tshape X) bs.

(* SketchedTensorTrain.increase_rank, sketch.py:303-353 *)
Definition stt_increase_rank (S0 : sketched) (X : tensor) (new_left new_right : ttrank)
  : res sketched :=
  do nl <- process_tt_rank new_left (tshape X) false;
  do nr <- process_tt_rank new_right (tshape X) false;
  let z := nseq (size (tshape X)).-1 0%N in
  let ls := [:: z; d_rank (left_drm S0); nl] in
  let rs := [:: z; rev (d_rank (right_drm S0)); nr] in
  do l <- drm_increase_rank (left_drm S0) nl;
  do r <- drm_increase_rank (right_drm S0) nr;
  do bs <- blocked_components X l r ls rs [:: (0%N, 0%N)];
  do s <- assemble_blocked ls rs (tshape X) (rcons bs (0%N, 0%N, sketch_ S0));
  Ok (Sketched s l r).

End Sketch.
