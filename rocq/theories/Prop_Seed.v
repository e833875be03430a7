(* C47: with a given seed, sketches are reproducible inside one process; what they depend on otherwise. *)
From Coq Require Import String Ascii NArith ZArith.
From mathcomp Require Import all_ssreflect all_algebra.
From mathcomp Require Import zify.
From Verif Require Import Py Nd NdThy Utils Tensor Hash Sketch Spec Ex SkSpec SkEx.
Set Implicit Arguments. Unset Strict Implicit. Unset Printing Implicit Defensive.
Import GRing.Theory.
Local Open Scope ring_scope.

(* np.mod(seed + hash(str(d)), 2**32), sketch.py:132 and 210, in a process whose string hash is
   such that hash(str(d)) = h d (randomly salted per process unless PYTHONHASHSEED is set) *)
Definition salted_right_seed (h : nat -> BinInt.Z) (seed : N) (d : nat) : N :=
  BinInt.Z.to_N (BinInt.Z.modulo (BinInt.Z.add (BinInt.Z.of_N seed) (h d)) 4294967296).

Section Seed.
Variable R : comRingType.
Notation arr := (nd R).
Variable to_normal : N -> R.
Variable tt_random : seq nat -> seq nat -> N -> seq arr.
Variable stream : N -> nat -> R.
Variable offset : N -> nat -> N.
Variable lstsq : arr -> arr -> res arr.
Variable qr_econ : arr -> res (arr * arr).
Let dnew := drm_new tt_random stream offset.
Let sstream rs := stream_sketch to_normal tt_random stream offset rs lstsq qr_econ.
Let sorth rs := orthogonal_sketch to_normal tt_random stream offset rs lstsq qr_econ.
Let shmt := hmt_sketch to_normal tt_random stream offset lstsq qr_econ.

(* With a seed given, nothing depends on the global random state / entropy [ent]: repeating the
   call gives the same result (value or exception) *)
Theorem C47_same_seed_stream rs X lrk rrk s lt rt l r ent ent' :
  sstream rs X lrk rrk (Some s) lt rt l r ent = sstream rs X lrk rrk (Some s) lt rt l r ent'.
Proof. by []. Qed.
Theorem C47_same_seed_orthogonal rs X lrk rrk s lt rt l r ent ent' :
  sorth rs X lrk rrk (Some s) lt rt l r ent = sorth rs X lrk rrk (Some s) lt rt l r ent'.
Proof. by []. Qed.
Theorem C47_same_seed_hmt X rk s t D b ent ent' :
  shmt X rk (Some s) t D b ent = shmt X rk (Some s) t D b ent'.
Proof. by []. Qed.

(* With both DRMs given, neither the seed nor the entropy nor the hash salt matters *)
Theorem C47_drms_given rs rs' X lrk rrk sd sd' lt rt lt' rt' L E ent ent' :
  sstream rs X lrk rrk sd lt rt (Some L) (Some E) ent = sstream rs' X lrk rrk sd' lt' rt' (Some L) (Some E) ent' /\
  sorth rs X lrk rrk sd lt rt (Some L) (Some E) ent = sorth rs' X lrk rrk sd' lt' rt' (Some L) (Some E) ent'.
Proof.
split; rewrite /sstream /sorth /stream_sketch /orthogonal_sketch /make_drms.
  by do 2 case: rank_gt => //= ?; case: ifP => // _; case: rank_is => //=; case: rank_is.
by case: rank_gt => //= -[] //=; case: rank_is => //=; case: rank_is.
Qed.

(* Between processes (string hashes h and h'), a seeded sketch agrees as soon as hash(str(d)) agrees
   modulo 2^32 for the order d of the tensor at hand *)
Theorem C47_across_processes h h' X lrk rrk s lt rt l r ent ent' : let d := size (tshape X) in
  BinInt.Z.modulo (h d) 4294967296 = BinInt.Z.modulo (h' d) 4294967296 ->
  sstream (salted_right_seed h) X lrk rrk (Some s) lt rt l r ent = sstream (salted_right_seed h') X lrk rrk (Some s) lt rt l r ent' /\
  sorth (salted_right_seed h) X lrk rrk (Some s) lt rt l r ent = sorth (salted_right_seed h') X lrk rrk (Some s) lt rt l r ent'.
Proof.
move=> d e; have es : salted_right_seed h s d = salted_right_seed h' s d.
  by rewrite /salted_right_seed -BinInt.Z.add_mod_idemp_r // e BinInt.Z.add_mod_idemp_r.
by split; rewrite /sstream /sorth /stream_sketch /orthogonal_sketch /make_drms -/d es.
Qed.

(* Seeds are used modulo 2^32 - 1: different seeds can give the same DRM *)
Theorem C47_seed_period c ent ent' rk sh t s k : c <> DenseGaussianDRM ->
  dnew c ent rk sh t (Some s) = dnew c ent' rk sh t (Some (N.add s (N.mul k 4294967295))).
Proof.
move=> nc; rewrite /dnew /drm_new /drm_init; case: process_tt_rank => //= rk'.
by rewrite /seed_mod N.mod_add //; case: c nc.
Qed.
Theorem C47_seed_period_hmt X rk s k c ent ent' b : c <> Some DenseGaussianDRM ->
  shmt X rk (Some s) c None b ent = shmt X rk (Some (N.add s (N.mul k 4294967295))) c None b ent'.
Proof.
move=> nc; rewrite /shmt /hmt_sketch; case: process_tt_rank => //= rk'.
rewrite -/(dnew _ _ _ _ _ _) (C47_seed_period ent ent' _ _ _ s k) //.
by case: c nc => [c|] // h e; apply: h; rewrite e.
Qed.

(* A DenseGaussianDRM rejects seeds that do not fit 32 bits (np.random.seed): ValueError, whatever
   the shape (at least two modes), rank and side; the other classes accept them (previous theorem) *)
Theorem C47_dense_seed_range ent n m s0 rk t s : N.le 4294967296%num s -> size rk = (size s0).+1 ->
  dnew DenseGaussianDRM ent (RTuple rk) [:: n, m & s0] t (Some s) = Err ValueError.
Proof.
move=> hs hr; rewrite /dnew /drm_new /drm_init /process_tt_rank /= hr eqxx.
have gen tr sh lo hi ds : size tr = (size s0).+1 -> size sh = (size s0).+2 -> size lo = (size s0).+1 -> size hi = (size s0).+1 ->
    dense_mats stream offset (Some s) ent ds tr sh lo hi = Err ValueError.
  move=> s1 s2 s3 s4; rewrite /dense_mats s1 s2 /= minnn /=.
  case: lo s3 => // a lo _; case: hi s4 => // b hi _; rewrite /pyget /= /dense_mat.
  by have /N.ltb_ge -> : N.le M32 s.
have e1 := size_nseq (size s0).+1 0%N.
by case: t => /=; rewrite gen ?size_rev //= ?size_rev ?e1 ?hr.
Qed.
End Seed.

(* ---- non-vacuity and the refutation ---- *)
(* a run with a seed succeeds; another seed gives another sketch *)
Definition rnd2 (shape rank : seq nat) (seed : N) : seq (nd Z) := rnd shape rank (N.modulo seed 7).
Definition seeded (h : nat -> BinInt.Z) (s : N) : option (seq (seq int)) :=
  if stream_sketch tn rnd2 str off (salted_right_seed h) lsq qr (TT ex_tt) (RInt 3) (RInt 5) (Some s) None None None None ent0
  is Ok st then Some [seq ndata P | P <- Psi_cores (sketch_ st)] else None.
Definition h1 (d : nat) : BinInt.Z := 12345.
Definition h2 (d : nat) : BinInt.Z := (-987654321).
Example C47_nonvacuous : seeded h1 7 <> None /\ seeded h1 7 <> seeded h1 8.
Proof. by split; vm_compute. Qed.

(* Same tensor, ranks and seed, two processes with different salts: different sketches *)
Theorem C47_across_processes_refuted : exists h h' X lrk rrk s,
  match stream_sketch tn rnd2 str off (salted_right_seed h) lsq qr X lrk rrk (Some s) None None None None ent0,
        stream_sketch tn rnd2 str off (salted_right_seed h') lsq qr X lrk rrk (Some s) None None None None ent0 with
  | Ok a, Ok b => [seq ndata P | P <- Psi_cores (sketch_ a)] <> [seq ndata P | P <- Psi_cores (sketch_ b)]
  | _, _ => False
  end.
Proof. by exists h1, h2, (TT ex_tt), (RInt 3), (RInt 5), 7%num; vm_compute. Qed.
Print Assumptions C47_same_seed_stream.
Print Assumptions C47_same_seed_orthogonal.
Print Assumptions C47_same_seed_hmt.
Print Assumptions C47_drms_given.
Print Assumptions C47_across_processes.
Print Assumptions C47_seed_period.
Print Assumptions C47_seed_period_hmt.
Print Assumptions C47_dense_seed_range.
Print Assumptions C47_across_processes_refuted.
