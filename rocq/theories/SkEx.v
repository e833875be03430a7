(* Concrete oracles and DRMs over the integers for the examples of Prop_Sketch.v.  The "random"
   numbers are arbitrary small integers depending on all arguments. *)
From Coq Require Import String Ascii NArith.
From mathcomp Require Import all_ssreflect all_algebra.
From mathcomp Require Import zify.
From Verif Require Import Py Nd NdThy Utils Tensor Hash Sketch Spec Ex SkSpec.
Set Implicit Arguments. Unset Strict Implicit. Unset Printing Implicit Defensive.
Import GRing.Theory.
Local Open Scope ring_scope.

(* trains with the requested shape and rank *)
Definition shaped_train (R : comRingType) (F : nat -> seq nat -> R) (shape rank : seq nat) : seq (nd R) :=
  [seq tab [:: p.1.1; p.1.2; p.2] (F p.1.2) | p <- zip (zip (1%N :: rank) shape) (rcons rank 1%N)].

Lemma shaped_train_links (R : comRingType) (F : nat -> seq nat -> R) a rank shape : size shape = (size rank).+1 ->
  let cs := [seq tab [:: p.1.1; p.1.2; p.2] (F p.1.2) | p <- zip (zip (a :: rank) shape) (rcons rank 1%N)] in
  [/\ links a cs 1, [seq dim C 1 | C <- cs] = shape & [seq dim C 2 | C <- take (size cs).-1 cs] = rank].
Proof.
elim: rank a shape => [|r rank IH] a [|n shape] //= [sz].
  by case: shape sz => //= _; split=> //; rewrite nwf_tab !eqxx.
have [h1 h2 h3] := IH r shape sz; split; [by rewrite nwf_tab eqxx|by rewrite h2|].
have : (0 < size [seq tab [:: p.1.1; p.1.2; p.2] (F p.1.2) | p <- zip (zip (r :: rank) shape) (rcons rank 1%N)])%N.
  by rewrite size_map !size_zip size_rcons /= sz !minnn.
by move: h3; case: (map _ (zip _ _)) => //= C cs <-.
Qed.

Definition rnd (shape rank : seq nat) (seed : N) : seq (nd Z) :=
  shaped_train (fun n i => Posz ((nth 0 i 0 + 2 * nth 0 i 1 + 3 * nth 0 i 2 + n + nat_of_bin seed).+1 %% 7)%N - 3) shape rank.
Lemma rnd_ok : tt_random_ok rnd.
Proof. by move=> shape rank seed s0 sr; apply: shaped_train_links; rewrite sr prednK. Qed.

Definition tn (w : N) : Z := Posz (nat_of_bin (N.modulo w (N.of_nat 11))) - 5.
Definition str (s : N) (k : nat) : Z := Posz (nat_of_bin (N.modulo (N.add s (N.of_nat (k * k))) (N.of_nat 13))) - 6.
Definition off (s : N) (k : nat) : N := N.add s (N.of_nat k).
Definition rs (s : N) (d : nat) : N := N.modulo (N.add s (N.of_nat d)) M32.
Definition lsq (a b : nd Z) : res (nd Z) := Err LinAlgError.
Definition qr (a : nd Z) : res (nd Z * nd Z) := Err LinAlgError.
Definition ent0 (k : nat) : N := N.of_nat k.

Definition gsk (X : tensor Z) (l : option (drm Z)) (r : drm Z) := general_sketch tn lsq qr X l r Streaming.
Definition sh232 : seq nat := [:: 2; 3; 2]%N.
(* a left DRM of rank (2, 3) and a right one of rank (4, 4) for tensors of shape (2, 3, 2) *)
Definition mk (c : drm_class) (t : bool) (rk : seq nat) : res (drm Z) :=
  drm_new rnd str off c ent0 (RTuple rk) sh232 t (Some (N.of_nat 5)).
Definition the (A : Type) (a : A) (x : res A) : A := if x is Ok y then y else a.
Definition drm0 : drm Z := Drm TensorTrainDRM [::] false [::] [::] [::] [::] N0 [::] [::] [::].
Definition exL (c : drm_class) : drm Z := the drm0 (mk c false [:: 2; 3]%N).
Definition exR (c : drm_class) : drm Z := the drm0 (mk c true [:: 4; 4]%N).
Definition run (c : drm_class) (X : tensor Z) : res (container Z) := gsk X (Some (exL c)) (exR c).
(* the numbers of a sketch *)
Definition nums (s : res (container Z)) : option (seq (seq int) * seq (seq int)) :=
  if s is Ok c then Some ([seq ndata P | P <- Psi_cores c], [seq ndata W | W <- Omega_mats c]) else None.
