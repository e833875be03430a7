(* The DRM constructors build valid DRMs; slicing; increasing the rank *)
From Coq Require Import String Ascii NArith.
From mathcomp Require Import all_ssreflect all_algebra.
From mathcomp Require Import zify.
From Verif Require Import Py Nd NdThy Ein Utils Tensor Hash Sketch Spec ChainThy TensorThy TensorThy2 RoundThy SkSpec SkThy1 SkThy5 SkThy6.
Set Implicit Arguments. Unset Strict Implicit. Unset Printing Implicit Defensive.
Import GRing.Theory.
Local Open Scope ring_scope.

Section Init.
Variable R : comRingType.
Variable tt_random : seq nat -> seq nat -> N -> seq (nd R).
Variable stream : N -> nat -> R.
Variable offset : N -> nat -> N.
Notation arr := (nd R).
Notation drm := (drm R).
Notation C0 := (C0 R).
Implicit Types (n mu : nat) (D : drm) (shape lo hi trk : seq nat).
Notation init := (drm_init tt_random stream offset).
Hypothesis hrand : tt_random_ok tt_random.

Definition flip (t : bool) (l : seq nat) : seq nat := if t then rev l else l.
Lemma size_flip t l : size (flip t l) = size l. Proof. by case: t; rewrite //= size_rev. Qed.
Lemma flipK t l : flip t (flip t l) = l. Proof. by case: t; rewrite //= revK. Qed.
(* position mu of the flipped list *)
Definition fpos (t : bool) n mu : nat := if t then (n - mu.+1)%N else mu.
Lemma fpos_lt t n mu : (mu < n)%N -> (fpos t n mu < n)%N.
Proof. by case: t => //=; lia. Qed.
Lemma fposK t n mu : (mu < n)%N -> fpos t n (fpos t n mu) = mu.
Proof. by case: t => //=; lia. Qed.
Lemma nth_flip t l mu : (mu < size l)%N -> nth 0%N (flip t l) mu = nth 0%N l (fpos t (size l) mu).
Proof. by case: t => //= h; rewrite nth_rev. Qed.

Lemma mapM_iotaN (T : Type) (x0 : T) (f : nat -> res T) n (Q : nat -> T -> Prop) :
  (forall mu, (mu < n)%N -> exists2 z, f mu = Ok z & Q mu z) ->
  exists2 l, mapM f (iota 0 n) = Ok l & size l = n /\ forall mu, (mu < n)%N -> Q mu (nth x0 l mu).
Proof.
move=> H; suff G k : (forall mu, (k <= mu < k + n)%N -> exists2 z, f mu = Ok z & Q mu z) ->
    exists2 l, mapM f (iota k n) = Ok l & size l = n /\ forall mu, (mu < n)%N -> Q (k + mu)%N (nth x0 l mu).
  by have [mu /andP[_ hm]|l e [s h]] := G 0%N; [apply: H | exists l].
elim: n k {H} => [|n IH] k H; first by exists [::].
have [|z ez qz] := H k; first by lia.
have [mu hm|l el [sl hl]] := IH k.+1; first by apply: H; lia.
exists (z :: l); first by rewrite /= ez /= el.
split; first by rewrite /= sl.
by case=> [|mu] hm /=; rewrite ?addn0 // addnS -addSn; apply: hl.
Qed.

(* admissible ranks: windows lo..hi inside 0..trk at every bond *)
Definition win_args d lo hi trk : Prop :=
  [/\ size lo = d, size hi = d, size trk = d &
   forall mu, (mu < d)%N -> (nth 0 lo mu <= nth 0 hi mu <= nth 0 trk mu)%N].

Lemma win_args_flip t d lo hi trk : win_args d lo hi trk -> win_args d (flip t lo) (flip t hi) (flip t trk).
Proof.
case=> h1 h2 h3 H; split; rewrite ?size_flip // => mu hm.
by rewrite !nth_flip ?h1 ?h2 ?h3 //; apply: H; apply: fpos_lt.
Qed.

Lemma drm_initE c ent rank shape t seed rmin rmax trank nnz rk :
  let d := (size shape).-1 in
  process_tt_rank rank shape false = Ok rk ->
  let lo := if rmin is Some r then r else nseq d 0%N in
  let hi := if rmax is Some r then r else rk in
  let trk := if trank is Some r then r else rk in
  let nz := if nnz is Some k then k else flip t trk in
  win_args d lo hi trk ->
  (c = DenseGaussianDRM -> if seed is Some s then N.ltb s M32 else true) ->
  (c = SparseSignDRM -> (d <= size nz)%N /\ forall mu, (mu < d)%N ->
     (nth 0 nz mu <= nth 0 (flip t trk) mu)%N /\ N.lt (N.of_nat (nth 0%N (flip t trk) mu)) (N.pow 2 52)) ->
  exists D, [/\ init c ent rank shape t seed rmin rmax trank nnz = Ok D,
     [/\ d_class D = c, d_shape D = shape, d_transpose D = t & d_seed D = N.modulo (if seed is Some s then s else ent 0%N) seed_mod],
     [/\ d_true_rank D = flip t trk, d_rank_min D = flip t lo, d_rank_max D = flip t hi,
         d_rank D = [seq (p.2 - p.1)%N | p <- zip (flip t lo) (flip t hi)] &
         (c = SparseSignDRM -> d_nnz D = nz)],
     [/\ c = TensorTrainDRM -> d_cores D = take d (tt_random (flip t shape) (flip t trk) (d_seed D)) &
         c = DenseGaussianDRM -> forall mu, (mu < d)%N ->
           nth C0 (d_mats D) mu =
           tab2 (nth 0%N (flip t hi) mu - nth 0%N (flip t lo) mu)%N (prods (take mu.+1 (flip t shape))) (fun a j =>
             stream (N.modulo (N.add (d_seed D) (if seed is Some s then offset s (prods (take mu.+1 (flip t shape))) else ent mu.+1)) seed_mod)
               ((nth 0 (flip t lo) mu + a) * prods (take mu.+1 (flip t shape)) + j)%N)] &
     drm_good D].
Proof.
move=> d ep lo hi trk nz W hs hn.
have d0 : (0 < size shape)%N by move: ep; rewrite /process_tt_rank; case: (size shape).
have [h1 h2 h3 H] := win_args_flip t W.
have sk : size [seq (p.2 - p.1)%N | p <- zip (flip t lo) (flip t hi)] = d by rewrite size_map size_zip h1 h2 minnn.
have nk mu : (mu < d)%N -> nth 0%N [seq (p.2 - p.1)%N | p <- zip (flip t lo) (flip t hi)] mu =
    (nth 0 (flip t hi) mu - nth 0 (flip t lo) mu)%N.
  by move=> hm; rewrite (nth_map (0%N, 0%N)) ?size_zip ?h1 ?h2 ?minnn // nth_zip ?h1 ?h2.
rewrite /init ep /= -/lo -/hi -/trk -/d -!/(flip t _).
case: c hs hn => hs hn.
- set cs := tt_random _ _ _.
  have [||L tS tR] := hrand (N.modulo (match seed with Some s => s | None => ent 0%N end) seed_mod) (shape := flip t shape) (rank := flip t trk).
  + by rewrite size_flip.
  + by rewrite h3 size_flip.
  rewrite -/cs in L tS tR.
  have sc : size cs = d.+1 by rewrite -(size_map (fun C => dim C 1)) tS size_flip /d; case: (size shape) d0.
  eexists; split; first by [].
  + by [].
  + by [].
  + by split=> //=; rewrite sc.
  split; rewrite /= ?sk // /drm_valid /drm_dims /= -/d -/(flip t shape); split=> /=.
  + by rewrite size_take sc /= ltnSn.
  + have [|r [L1 _ _]] := @links_split _ _ _ _ d L; first by rewrite sc.
    by exists r; rewrite sc /= take_take.
  + by rewrite sc /= take_take // map_take tS.
  + by split; rewrite /= ?h1 ?h2 ?sk // => mu hm; rewrite nk //; have /andP[] := H mu hm.
  + move=> mu hm; rewrite sc /= nth_take //.
    have /andP[_ hh] := H mu hm; apply: leq_trans hh _.
    by rewrite -tR sc /= (nth_map C0) ?size_take ?sc ?ltnSn // nth_take.
- have em : minn (size (flip t trk)) (size (flip t shape)).-1 = d by rewrite h3 size_flip minnn.
  set P := fun mu => prods (take mu.+1 (flip t shape)).
  set sd := N.modulo _ _; rewrite /dense_mats em.
  set ss := fun mu => N.modulo (N.add sd (if seed is Some s then offset s (P mu) else ent mu.+1)) seed_mod.
  have [|Ms -> [sM hM]] := @mapM_iotaN arr C0 (fun mu =>
      do x <- pyget (flip t lo) mu; do y <- pyget (flip t hi) mu;
      dense_mat stream offset seed ent sd mu (nth 0%N (flip t trk) mu) (P mu) x y) d (fun mu A => A =
       tab2 (nth 0%N (flip t hi) mu - nth 0%N (flip t lo) mu)%N (P mu) (fun a j => stream (ss mu) ((nth 0 (flip t lo) mu + a) * P mu + j)%N)).
    move=> mu hm; rewrite (pygetE 0%N) ?h1 //= (pygetE 0%N) ?h2 //= /dense_mat.
    have -> : match seed with Some s => if N.ltb s M32 then Ok (offset s (P mu)) else Err ValueError | None => Ok (ent mu.+1) end =
        Ok (if seed is Some s then offset s (P mu) else ent mu.+1).
      by case: seed hs {sd ss} => [s /(_ erefl) ->|].
    eexists; first by [].
    rewrite (@slice0E _ _ (P mu) (nth 0%N (flip t trk) mu)) ?H //.
    by apply: tab2_ext => a j ha hj; rewrite get_tab //= hj andbT; have /andP[_ h] := H mu hm; lia.
  rewrite /=; eexists; split; first by [].
  + by [].
  + by [].
  + by split=> //= _ mu hm; rewrite hM.
  split; rewrite /= ?sk // /drm_valid /drm_dims /= -/d -/(flip t shape); split=> /=; first by rewrite sM.
  move=> mu hm; rewrite hM //; split; first exact: nwf_tab.
  by rewrite /drm_cols /= nk.
- eexists; split; first by [].
  + by [].
  + by [].
  + by [].
  split; rewrite /= ?sk // /drm_valid /= -/d.
  by split; rewrite /= ?h1 ?h2 ?sk // => mu hm; rewrite nk //; have /andP[] := H mu hm.
- have [hz1 hz2] := hn erefl.
  eexists; split; first by [].
  + by [].
  + by [].
  + by [].
  split; rewrite /= ?sk // /drm_valid /= -/d; split=> /=; rewrite ?h3 //.
  + by split; rewrite /= ?h1 ?h2 ?sk // => mu hm; rewrite nk //; have /andP[] := H mu hm.
  + by move=> mu hm; have [? ?] := hz2 mu hm; have /andP[] := H mu hm.
Qed.

Notation slice := (drm_slice tt_random stream offset).
Notation new := (drm_new tt_random stream offset).
Notation increase := (drm_increase_rank tt_random stream offset).

Lemma seed_modK s : N.modulo (N.modulo s seed_mod) seed_mod = N.modulo s seed_mod.
Proof. by apply: N.mod_mod. Qed.
Lemma seed_lt s : N.lt (N.modulo s seed_mod) M32.
Proof. by apply: (@N.lt_trans _ seed_mod); [apply: N.mod_lt|]. Qed.

Lemma process_size rank shape trim rk : process_tt_rank rank shape trim = Ok rk -> trim = false ->
  (0 < size shape)%N /\ size rk = (size shape).-1.
Proof.
rewrite /process_tt_rank => + et; rewrite et; case: (size shape) => [|n] //=.
by case: ifP => // /negbFE/eqP e [<-].
Qed.

Lemma win_args_new d rk : size rk = d -> win_args d (nseq d 0%N) rk rk.
Proof.
move=> s; split; rewrite ?size_nseq // => mu hm; by rewrite nth_nseq hm leq0n leqnn.
Qed.

Lemma nth_sub d lo hi mu : size lo = d -> size hi = d -> (mu < d)%N ->
  nth 0%N [seq (p.2 - p.1)%N | p <- zip lo hi] mu = (nth 0 hi mu - nth 0 lo mu)%N.
Proof. by move=> h1 h2 hm; rewrite (nth_map (0%N, 0%N)) ?size_zip ?h1 ?h2 ?minnn // nth_zip ?h1 ?h2. Qed.

Lemma sub_zeros d rk : size rk = d -> [seq (p.2 - p.1)%N | p <- zip (nseq d 0%N) rk] = rk.
Proof. by elim: rk d => [|x rk IH] [|d] //= [/IH->]; rewrite subn0. Qed.
Lemma flip_nseq t d : flip t (nseq d 0%N) = nseq d 0%N.
Proof. by case: t => //=; rewrite rev_nseq. Qed.

(* a DRM made by the constructor with default options *)
Lemma drm_newE c ent rank shape t seed rk : process_tt_rank rank shape false = Ok rk ->
  new_args c rk seed -> exists D, [/\ new c ent rank shape t seed = Ok D,
     [/\ d_class D = c, d_shape D = shape, d_transpose D = t & d_seed D = N.modulo (if seed is Some s then s else ent 0%N) seed_mod],
     [/\ d_true_rank D = flip t rk, d_rank D = flip t rk,
         d_rank_min D = nseq (size shape).-1 0%N, d_rank_max D = flip t rk & (c = SparseSignDRM -> d_nnz D = flip t rk)] &
     drm_good D].
Proof.
move=> ep [hd hs]; have [s0 sr] := process_size ep erefl.
have [||D [eD h1 [e1 e2 e3 e4 e5] _ h4]] := @drm_initE c ent rank shape t seed None None None None rk ep (win_args_new sr).
- move=> ec; move: (hd ec); case: (seed) => // s /N.ltb_lt h; apply/N.ltb_lt; exact: N.lt_trans h _.
- move=> ec; rewrite size_flip sr; split=> // mu hm; split=> //.
  by rewrite nth_flip ?sr //; apply: hs => //; rewrite sr; apply: fpos_lt.
exists D; split=> //; split=> //; first by rewrite e4 flip_nseq sub_zeros // size_flip.
by rewrite e2 flip_nseq.
Qed.

Lemma sliceE to_normal c ent rank shape t seed rk D a b : process_tt_rank rank shape false = Ok rk ->
  new_args c rk seed -> new c ent rank shape t seed = Ok D -> win_args (size shape).-1 a b rk ->
  exists2 D', slice D a b = Ok D' & [/\ drm_good D', [/\ d_class D' = c, d_shape D' = shape & d_transpose D' = t],
    [/\ d_class D = c, d_true_rank D' = d_true_rank D, d_seed D' = d_seed D & (c = SparseSignDRM -> d_nnz D' = d_nnz D)],
    (forall mu, (mu < (size shape).-1)%N -> drm_cols D' mu = (nth 0 (flip t b) mu - nth 0 (flip t a) mu)%N) &
    (forall mu i x, (mu < (size shape).-1)%N -> inb (take mu.+1 (drm_dims D')) i -> (x < drm_cols D' mu)%N ->
      drm_entry to_normal D' mu i x = drm_entry to_normal D mu i (nth 0 (flip t a) mu + x)%N)].
Proof.
move=> ep [hd hs] eD W; have [s0 sr] := process_size ep erefl.
have seed_s : c = DenseGaussianDRM -> if seed is Some s then N.ltb s M32 else true.
  move=> ec; move: (hd ec); case: (seed) => // s /N.ltb_lt h; apply/N.ltb_lt; exact: N.lt_trans h _.
have [//||D0 [eD0 [c1 c2 c3 c4] [e1 e2 e3 e4 e5] [e6 e7] [_ sD]]] := @drm_initE c ent rank shape t seed None None None None rk ep (win_args_new sr).
- move=> ec; rewrite size_flip sr; split=> // mu hm; split=> //.
  by rewrite nth_flip ?sr //; apply: hs => //; rewrite sr; apply: fpos_lt.
rewrite /drm_new eD0 in eD; case: eD => eD; rewrite {}eD in c1 c2 c3 c4 e1 e2 e3 e4 e5 e6 e7 sD *.
have ep2 : process_tt_rank (RTuple (d_rank D)) shape false = Ok (d_rank D).
  by rewrite /process_tt_rank sD c2 eqxx /=; case: (size shape) s0.
have etr : (if d_transpose D then rev (d_true_rank D) else d_true_rank D) = rk.
  by rewrite c3 e1; exact: flipK.
have W' : win_args (size shape).-1 a b (if d_transpose D then rev (d_true_rank D) else d_true_rank D) by rewrite etr.
rewrite /drm_slice c1 c2 c3; rewrite c3 in etr W'.
have [||D' [-> [f1 f2 f3 f4] [g1 g2 g3 g4 g5] [g6 g7] gD]] := @drm_initE c (fun _ => N0) (RTuple (d_rank D)) shape t (Some (d_seed D)) (Some a) (Some b)
   (Some (if t then rev (d_true_rank D) else d_true_rank D)) None (d_rank D) ep2 W'.
- by move=> _; apply/N.ltb_lt; rewrite c4; apply: seed_lt.
- move=> ec; rewrite etr size_flip sr; split=> // mu hm; split=> //.
  by rewrite nth_flip ?sr //; apply: hs => //; rewrite sr; apply: fpos_lt.
have eS : d_seed D' = d_seed D by rewrite f4 c4 seed_modK.
have [wa wb wc wH] := win_args_flip t W.
exists D' => //; split=> //.
- split=> //; first by rewrite g1 etr e1.
  by move=> ec; rewrite g5 // e5 // etr.
- by move=> mu hm; rewrite /drm_cols g4 (@nth_sub (size shape).-1).
move=> mu i x hm hi hx; rewrite /drm_entry f1 c1 /drm_dims f2 c2 f3 c3 eS.
have lo0 : nth 0%N (d_rank_min D) mu = 0%N by rewrite e2 flip_nseq nth_nseq hm.
have lo1 : nth 0%N (d_rank_min D') mu = nth 0%N (flip t a) mu by rewrite g2.
rewrite lo0 lo1 add0n.
have etr' : flip t (if t then rev (d_true_rank D) else d_true_rank D) = flip t rk by rewrite etr.
case: c hd hs seed_s eD0 c1 f1 e5 g5 e6 e7 g6 g7 => hd hs seed_s eD0 c1 f1 e5 g5 e6 e7 g6 g7.
- by rewrite g6 // e6 // etr' eS.
- have [hs1] : exists s, seed = Some s by move: (hd erefl); case: (seed) => // s _; exists s.
  move=> es; move: (hd erefl); rewrite es => /N.ltb_lt hlt.
  have hx' : (x < nth 0 (flip t b) mu - nth 0 (flip t a) mu)%N by move: hx; rewrite /drm_cols g4 (@nth_sub (size shape).-1).
  have /andP[wH1 wH2] := wH mu hm.
  have hi' : (ravel (take mu.+1 (flip t shape)) i < prods (take mu.+1 (flip t shape)))%N.
    by apply: ravel_lt; move: hi; rewrite /drm_dims f2 f3.
  rewrite (g7 erefl) // (e7 erefl) // get_tab2 // get_tab2 //.
    rewrite eS es; have -> : d_seed D = hs1 by rewrite c4 es N.mod_small.
    by rewrite flip_nseq nth_nseq hm add0n.
  by rewrite flip_nseq nth_nseq hm subn0; clear -hx' wH1 wH2; lia.
- by [].
- by rewrite g1 g5 // e5 // etr' e1.
Qed.

Lemma increaseE to_normal c ent rank shape t seed rk D nk : process_tt_rank rank shape false = Ok rk ->
  new_args c rk seed -> new c ent rank shape t seed = Ok D -> can_increase c -> size nk = (size shape).-1 ->
  [/\ increase D nk = new c (fun _ => N0) (RTuple nk) shape t (Some (d_seed D)),
      process_tt_rank (RTuple nk) shape false = Ok nk, new_args c nk (Some (d_seed D)) &
  exists2 D', increase D nk = Ok D' & forall mu i x, (mu < (size shape).-1)%N ->
     inb (take mu.+1 (drm_dims D')) i -> (x < nth 0 (flip t nk) mu)%N -> (x < nth 0 (flip t rk) mu)%N ->
     drm_entry to_normal D' mu i x = drm_entry to_normal D mu i x].
Proof.
move=> ep [hd hs] eD ci sn; have [s0 sr] := process_size ep erefl.
have seed_s : c = DenseGaussianDRM -> if seed is Some s then N.ltb s M32 else true.
  move=> ec; move: (hd ec); case: (seed) => // s /N.ltb_lt h; apply/N.ltb_lt; exact: N.lt_trans h _.
have [//||D0 [eD0 [c1 c2 c3 c4] [e1 e2 e3 e4 e5] [e6 e7] [_ sD]]] := @drm_initE c ent rank shape t seed None None None None rk ep (win_args_new sr).
- move=> ec; rewrite size_flip sr; split=> // mu hm; split=> //.
  by rewrite nth_flip ?sr //; apply: hs => //; rewrite sr; apply: fpos_lt.
rewrite /drm_new eD0 in eD; case: eD => eD; rewrite {}eD in c1 c2 c3 c4 e1 e2 e3 e4 e5 e6 e7 sD *.
have ep2 : process_tt_rank (RTuple nk) shape false = Ok nk.
  by rewrite /process_tt_rank sn eqxx /=; case: (size shape) s0.
have nse : c = SparseSignDRM -> False by case: (c) ci.
have ei : increase D nk = new c (fun _ => N0) (RTuple nk) shape t (Some (d_seed D)).
  by rewrite /drm_increase_rank c1 ci c2 c3.
split=> //.
  split=> [_|/nse //]; apply/N.ltb_lt; rewrite c4; exact: N.mod_lt.
rewrite ei /drm_new.
have [||D' [-> [f1 f2 f3 f4] [g1 g2 g3 g4 g5] [g6 g7] gD]] := @drm_initE c (fun _ => N0) (RTuple nk) shape t (Some (d_seed D)) None None None None nk ep2 (win_args_new sn).
- by move=> _; apply/N.ltb_lt; rewrite c4; apply: seed_lt.
- by move/nse.
have eS : d_seed D' = d_seed D by rewrite f4 c4 seed_modK.
exists D' => // mu i x hm hi hx1 hx2; rewrite /drm_entry f1 c1 /drm_dims f2 c2 f3 c3 eS.
have lo0 : nth 0%N (d_rank_min D) mu = 0%N by rewrite e2 flip_nseq nth_nseq hm.
have lo1 : nth 0%N (d_rank_min D') mu = 0%N by rewrite g2 flip_nseq nth_nseq hm.
rewrite lo0 lo1 add0n.
case: c ci hd hs seed_s eD0 c1 f1 e5 g5 e6 e7 g6 g7 nse {ei} => // ci hd hs seed_s eD0 c1 f1 e5 g5 e6 e7 g6 g7 nse.
have [hs1] : exists s, seed = Some s by move: (hd erefl); case: (seed) => // s _; exists s.
move=> es; move: (hd erefl); rewrite es => /N.ltb_lt hlt.
have hi' : (ravel (take mu.+1 (flip t shape)) i < prods (take mu.+1 (flip t shape)))%N.
  by apply: ravel_lt; move: hi; rewrite /drm_dims f2 f3.
rewrite (g7 erefl) // (e7 erefl) // get_tab2 ?flip_nseq ?nth_nseq ?hm ?subn0 // get_tab2 ?subn0 //.
by rewrite eS es; have -> : d_seed D = hs1 by rewrite c4 es N.mod_small.
Qed.
End Init.
