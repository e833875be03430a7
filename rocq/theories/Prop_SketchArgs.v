(* C46, continued: a rank tuple whose length is not the number of modes minus one is rejected. *)
From Coq Require Import String Ascii NArith ZArith.
From mathcomp Require Import all_ssreflect all_algebra.
From Verif Require Import Py Nd Utils Tensor Hash Sketch Spec Ex SkSpec SkEx.
Set Implicit Arguments. Unset Strict Implicit. Unset Printing Implicit Defensive.
Import GRing.Theory.
Local Open Scope ring_scope.

Section Args.
Variable R : comRingType.
Notation arr := (nd R).
Variable to_normal : N -> R.
Variable tt_random : seq nat -> seq nat -> N -> seq arr.
Variable stream : N -> nat -> R.
Variable offset : N -> nat -> N.
Variable right_seed_of : N -> nat -> N.
Variable lstsq : arr -> arr -> res arr.
Variable qr_econ : arr -> res (arr * arr).
Let sstream := stream_sketch to_normal tt_random stream offset right_seed_of lstsq qr_econ.
Let sorth := orthogonal_sketch to_normal tt_random stream offset right_seed_of lstsq qr_econ.
Let shmt := hmt_sketch to_normal tt_random stream offset lstsq qr_econ.

Lemma process_bad rs sh trim : size rs <> (size sh).-1 -> process_tt_rank (RTuple rs) sh trim = Err ValueError.
Proof. by move=> /eqP/negbTE h; rewrite /process_tt_rank h orbT. Qed.
Lemma all_gt_err a b e : all_gt a b = Err e -> e = ValueError.
Proof. by rewrite /all_gt /bcast_tuples; do 3 (case: ifP => _ //); case. Qed.
Lemma rank_gt_err a b e : rank_gt a b = Err e -> e = ValueError.
Proof. by case: a b => [x|k] [y|l] //= /all_gt_err. Qed.

Lemma bind_err (A B : Type) (x : res A) (f : A -> res B) : (forall a, exists e, f a = Err e) -> exists e, bind x f = Err e.
Proof. by move=> h; case: x => [a|e] /=; [exact: h|exists e]. Qed.

(* the left ranks, or the rank of hmt_sketch, have the wrong length: ValueError *)
Theorem C46_wrong_length X rs : size rs <> (size (tshape X)).-1 ->
  [/\ forall r sd lt rt right ent, sstream X (RTuple rs) r sd lt rt None right ent = Err ValueError,
      forall r sd lt rt right ent, sorth X (RTuple rs) r sd lt rt None right ent = Err ValueError &
      forall sd t b ent, shmt X (RTuple rs) sd t None b ent = Err ValueError].
Proof.
move=> h; split=> *; last by rewrite /shmt /hmt_sketch process_bad.
  rewrite /sstream /stream_sketch.
  case e1: rank_gt => [a|e] /=; last by rewrite (rank_gt_err e1).
  case e2: rank_gt => [b|e] /=; last by rewrite (rank_gt_err e2).
  by case: ifP => // _; rewrite /make_drms process_bad.
rewrite /sorth /orthogonal_sketch.
case e1: rank_gt => [a|e] /=; last by rewrite (rank_gt_err e1).
by case: ifP => // _; rewrite /make_drms process_bad.
Qed.

(* the right ranks have the wrong length: an exception too, whatever the left DRM is *)
Theorem C46_wrong_length_right X rs : size rs <> (size (tshape X)).-1 ->
  forall l sd lt rt left ent,
  (exists e, sstream X l (RTuple rs) sd lt rt left None ent = Err e) /\
  (exists e, sorth X l (RTuple rs) sd lt rt left None ent = Err e).
Proof.
move=> h l sd lt rt left ent.
have md tl tr : exists e, make_drms tt_random stream offset right_seed_of (tshape X) l (RTuple rs) sd lt rt left None ent tl tr = Err e.
  rewrite /make_drms; apply: bind_err => p /=; by rewrite process_bad //; exists ValueError.
split.
  rewrite /sstream /stream_sketch; apply: bind_err => a; apply: bind_err => b.
  case: ifP => _; first by exists ValueError.
  by have [e ->] := md b a; exists e.
rewrite /sorth /orthogonal_sketch; apply: bind_err => a.
case: ifP => _; first by exists ValueError.
by have [e ->] := md true false; exists e.
Qed.
End Args.

(* three ranks for a tensor with three modes *)
Example C46_wrong_length_nonvacuous : size [:: 2; 2; 2]%N <> (size (tshape (TT ex_tt : tensor _))).-1.
Proof. by []. Qed.

Print Assumptions C46_wrong_length.
Print Assumptions C46_wrong_length_right.
