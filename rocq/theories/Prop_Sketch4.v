(* Refuted parts of C23 and C25 (concrete counterexamples over the integers, where the model
   computes), and concrete cases that meet the hypotheses of the theorems of Prop_Sketch.v,
   Prop_Sketch2.v and Prop_Sketch3.v. *)
From Coq Require Import String Ascii NArith.
From mathcomp Require Import all_ssreflect all_algebra.
From mathcomp Require Import zify.
From Verif Require Import Py Nd NdThy Ein Utils Tensor Hash Sketch Spec TensorThy TensorThy2 TensorThy4 TrimThy RoundThy SkSpec SkThy2 SkThy7 SkThy8 SkThy9 SkThy10 SkThy11 SkThy12 SkThy13 SkThy14 SkThy15 Ex SkEx Prop_Sketch Prop_Sketch2 Prop_Sketch3.
Set Implicit Arguments. Unset Strict Implicit. Unset Printing Implicit Defensive.
Import GRing.Theory.
Local Open Scope ring_scope.

(* the example DRMs are made by the constructors: a left one of rank (2, 3) and a right one of
   rank (4, 4), each of the four classes *)
Definition lk : seq nat := [:: 2; 3]%N.
Definition rk : seq nat := [:: 4; 4]%N.
Lemma ex_args c r : r = lk \/ r = rk -> new_args c r (Some (N.of_nat 5)).
Proof. by move=> hr; split=> // _ mu; case: hr => -> /=; case: mu => [|[|]] //= _; vm_compute. Qed.
Lemma ex_new c t r : r = lk \/ r = rk -> exists D,
  [/\ mk c t r = Ok D, d_class D = c & made rnd str off t sh232 r D].
Proof.
move=> hr; have hp : process_tt_rank (RTuple r) sh232 false = Ok r by case: hr => ->.
have [D [e [h1 _ _ _] _ _]] := drm_newE str off rnd_ok ent0 t hp (ex_args c hr).
by exists D; split=> //; exists c, ent0, (RTuple r), (Some (N.of_nat 5)); split=> //; apply: ex_args.
Qed.
Lemma exL_made c : made rnd str off false sh232 lk (exL c) /\ d_class (exL c) = c.
Proof. by rewrite /exL; have [D [-> h1 h2]] := @ex_new c false lk (or_introl erefl). Qed.
Lemma exR_made c : made rnd str off true sh232 rk (exR c) /\ d_class (exR c) = c.
Proof. by rewrite /exR; have [D [-> h1 h2]] := @ex_new c true rk (or_intror erefl). Qed.
Lemma ex_pair c : pair_ok (exL c) (exR c) sh232.
Proof.
have [[mL _] [mR _]] := (exL_made c, exR_made c).
by have [[h1 h2 h3 _] _] := made_good rnd_ok mL; have [[h4 h5 h6 _] _] := made_good rnd_ok mR.
Qed.
Lemma ex_tt_fits X : fits (exL TensorTrainDRM) 2 X /\ fits (exR TensorTrainDRM) 2 X.
Proof.
have [[mL cL] [mR cR]] := (exL_made TensorTrainDRM, exR_made TensorTrainDRM); split.
  exact: (fits_tt rnd_ok X mL cL).
exact: (fits_tt rnd_ok X mR cR).
Qed.

(* ---- C23: dense and Tucker tensors with three modes ---- *)
(* the same tensor stored densely and sparsely has different sketches *)
Theorem C23_dense_refuted : exists (X Y : tensor Z) (D E : drm Z) a c c',
  [/\ wf X /\ wf Y, to_numpy X = Ok a /\ to_numpy Y = Ok a, pair_ok D E (tshape X),
      [/\ fits D 2 X, fits E 2 X, fits D 2 Y & fits E 2 Y] &
      [/\ general_sketch tn lsq qr X (Some D) E Streaming = Ok c,
          general_sketch tn lsq qr Y (Some D) E Streaming = Ok c' & Psi_cores c <> Psi_cores c']].
Proof.
pose c0 := Container [::] [::] [::] [::] [::] : container Z.
exists (Dense ex_dense), (to_sparse ex_dense), (exL TensorTrainDRM), (exR TensorTrainDRM), ex_dense,
  (the c0 (run TensorTrainDRM (Dense ex_dense))), (the c0 (run TensorTrainDRM (to_sparse ex_dense))).
split; [by split; vm_compute|by split; vm_compute| | |].
- exact: ex_pair.
- have [h1 h2] := ex_tt_fits (Dense ex_dense); by have [h3 h4] := ex_tt_fits (to_sparse ex_dense).
split.
- by vm_compute.
- by vm_compute.
- by move=> e; suff : map (@ndata _) (Psi_cores (the c0 (run TensorTrainDRM (Dense ex_dense)))) == map (@ndata _) (Psi_cores (the c0 (run TensorTrainDRM (to_sparse ex_dense)))); [vm_compute|rewrite e].
Qed.

(* two Tucker representations of one tensor (the second one permutes the columns of two
   factors) have different sketches: the sketch is not even a function of the tensor *)
Definition tk1 : tensor Z := Tucker ex_tucker_fs ex_tucker_core.
Definition tk2 : tensor Z := Tucker
  [:: arrZ [:: 1; 2]%N [:: 3; 4];
      arrZ [:: 3; 3]%N [:: 1; 0; 2; -1; 1; 1; 0; 0; 0];
      arrZ [:: 2; 2]%N [:: 1; 1; 0; 2] ] (arrZ [:: 1; 3; 2]%N [:: 1; -2; 3; 5; 4; 4]).
Theorem C23_tucker_refuted : exists (X Y : tensor Z) (D E : drm Z) a c c',
  [/\ wf X /\ wf Y, to_numpy X = Ok a /\ to_numpy Y = Ok a, pair_ok D E (tshape X),
      [/\ fits D 2 X, fits E 2 X, fits D 2 Y & fits E 2 Y] &
      [/\ general_sketch tn lsq qr X (Some D) E Streaming = Ok c,
          general_sketch tn lsq qr Y (Some D) E Streaming = Ok c' & Psi_cores c <> Psi_cores c']].
Proof.
pose c0 := Container [::] [::] [::] [::] [::] : container Z.
exists tk1, tk2, (exL TensorTrainDRM), (exR TensorTrainDRM), (the (Nd [::] [::]) (to_numpy tk1)),
  (the c0 (run TensorTrainDRM tk1)), (the c0 (run TensorTrainDRM tk2)).
split; [by split; vm_compute|by split; vm_compute| | |].
- exact: ex_pair.
- have [h1 h2] := ex_tt_fits tk1; by have [h3 h4] := ex_tt_fits tk2.
split.
- by vm_compute.
- by vm_compute.
- by move=> e; suff : map (@ndata _) (Psi_cores (the c0 (run TensorTrainDRM tk1))) == map (@ndata _) (Psi_cores (the c0 (run TensorTrainDRM tk2))); [vm_compute|rewrite e].
Qed.

(* ---- C25: slices that are not honoured ---- *)
Section Refuted.
Variable R : comRingType.
Variable to_normal : N -> R.
Variable tt_random : seq nat -> seq nat -> N -> seq (nd R).
Variable stream : N -> nat -> R.
Variable offset : N -> nat -> N.
Variable lstsq : nd R -> nd R -> res (nd R).
Variable qr_econ : nd R -> res (nd R * nd R).
Notation gs := (general_sketch to_normal lstsq qr_econ).
Notation made := (made tt_random stream offset).
Notation slice := (drm_slice tt_random stream offset).
Notation new := (drm_new tt_random stream offset).

Lemma slice_same t s rk0 (D D' : drm R) a b : made t s rk0 D -> d_class D = TensorTrainDRM ->
  size a = (size s).-1 -> size b = (size s).-1 -> slice D a b = Ok D' ->
  [/\ d_class D' = TensorTrainDRM, d_shape D' = s, d_transpose D' = t, d_cores D' = d_cores D & size (d_rank D') = (size s).-1]
  /\ [/\ d_shape D = s, d_transpose D = t & size (d_rank D) = (size s).-1].
Proof.
move=> [c [ent [rank [seed [hp ha hn]]]]] cD sa sb.
have [s0 sr] := process_size hp erefl.
move: hn; rewrite /drm_new /drm_init hp /=; move=> hn.
have ec : c = TensorTrainDRM.
  by move: hn cD; case: (c) => //; [case: (dense_mats _ _ _ _ _ _ _ _ _) => //= ?|..]; case=> <-.
move: hn; rewrite ec => -[<-] /=; rewrite /drm_slice /= /drm_init /= /process_tt_rank /=.
rewrite size_map size_zip.
have sf (l : seq nat) : size (if t then rev l else l) = size l by case: (t); rewrite ?size_rev.
rewrite !sf sr size_nseq minnn eqxx /= (_ : (size s == 0)%N = false); last by clear -s0; lia.
have ff (l : seq nat) : (if t then rev (if t then rev l else l) else (if t then rev l else l)) = l by case: (t); rewrite ?revK.
rewrite !ff; case=> <- /=; split; split=> //; rewrite ?N.mod_mod // size_map size_zip !sf ?sa ?sb ?sr ?size_nseq ?minnn //.
Qed.

(* a TensorTrainDRM uses its whole range for dense tensors, whatever the slice: the sketch with
   sliced DRMs is the full sketch *)
Theorem C25_dense_refuted (x : nd R) (D E D' E' : drm R) lk0 rk0 a b a' b' : let s := nshape x in let d := size s in
  made false s lk0 D -> made true s rk0 E -> d_class D = TensorTrainDRM -> d_class E = TensorTrainDRM ->
  size a = d.-1 -> size b = d.-1 -> size a' = d.-1 -> size b' = d.-1 ->
  slice D a b = Ok D' -> slice E a' b' = Ok E' ->
  gs (Dense x) (Some D') E' Streaming = gs (Dense x) (Some D) E Streaming.
Proof.
move=> s d mD mE cD cE sa sb sa' sb' eD eE.
have [[h1 h2 h3 h4 h5] [k1 k2 k3]] := slice_same mD cD sa sb eD.
have [[h1' h2' h3' h4' h5'] [k1' k2' k3']] := slice_same mE cE sa' sb' eE.
have sk (G G' : drm R) t : d_class G = TensorTrainDRM -> d_class G' = TensorTrainDRM -> d_shape G = s -> d_shape G' = s ->
    d_transpose G = t -> d_transpose G' = t -> d_cores G' = d_cores G ->
    sketch_all to_normal G' (Dense x) = sketch_all to_normal G (Dense x).
  move=> c1 c2 s1 s2 t1 t2 e; rewrite /sketch_all /= /wrapped_sketch /= /has_method c1 c2 s1 s2 t1 t2 /=.
  case: ifP => // _; case: (t) => /=; last by rewrite /leaf_sketch c1 c2 /ttdrm_dense e.
  by case: (dense_T x) => //= y; rewrite /leaf_sketch c1 c2 /ttdrm_dense e.
rewrite /general_sketch (sk D D' false) // (sk E E' true) //.
case: (sketch_all to_normal D _) => //= lc; case: (sketch_all to_normal E _) => //= rc.
have pg (u v : seq nat) mu : size u = size v -> (exists p q, pyget u mu = Ok p /\ pyget v mu = Ok q) \/
    (pyget u mu = Err IndexError /\ pyget v mu = Err IndexError).
  move=> suv; rewrite /pyget; elim: u v mu suv => [|p u IH] [|q v] [|mu] //= suv; try by right.
    by left; exists p, q.
  by apply: IH; case: suv.
have sz : size (d_rank D') = size (d_rank D) by rewrite h5 k3.
have sz' : size (rev (d_rank E')) = size (rev (d_rank E)) by rewrite !size_rev h5' k3'.
set W1 := mapM _ _; set W2 := mapM _ _; have -> : W1 = W2.
  rewrite /W1 /W2; elim: (iota _ _) => //= mu l ->; congr bind.
  case: (pyget lc mu) => //= L; case: (pyget rc mu) => //= r.
  have [[p [q [-> ->]]]|[-> ->]] //= := pg _ _ mu sz.
  by have [[p' [q' [-> ->]]]|[-> ->]] := pg _ _ mu sz'.
case: W2 => //= Om; congr bind; elim: (iota _ _) [::] => //= mu l IH Ps.
rewrite (_ : psi_step _ _ _ _ _ _ _ _ _ _ _ _ = psi_step to_normal lstsq qr_econ (Dense x) Streaming (d_rank D) (d_rank E) lc rc Om Ps mu).
  by case: (psi_step _ _ _ _ _ _ _ _ _ _ _ _) => //= Ps'; apply: IH.
rewrite /psi_step /=; case: ifP => [m0|m0] /=.
  case: (pyget lc mu.-1) => //= L; have [[p [q [-> ->]]]|[-> ->]] //= := pg _ _ mu.-1 sz.
  case: ifP => // _; case: (pyget rc mu) => //= r.
  by have [[p' [q' [-> ->]]]|[-> ->]] := pg _ _ mu sz'.
case: ifP => // _; case: (pyget rc mu) => //= r.
by have [[p' [q' [-> ->]]]|[-> ->]] := pg _ _ mu sz'.
Qed.

(* a DenseGaussianDRM cannot be made with a seed of 2^32 or more *)
Theorem C25_dense_gaussian_seed_refuted ent rank s t sd rk0 : process_tt_rank rank s false = Ok rk0 -> (1 < size s)%N ->
  N.le M32 sd -> new DenseGaussianDRM ent rank s t (Some sd) = Err ValueError.
Proof.
move=> hp s1 hsd; have [s0 sr] := process_size hp erefl.
rewrite /drm_new /drm_init hp /= /dense_mats.
have sf (l : seq nat) : size (if t then rev l else l) = size l by case: (t); rewrite ?size_rev.
rewrite !sf sr minnn; have -> : (size s).-1 = ((size s).-2).+1 by clear -s1; lia.
have pg (l : seq nat) : (0 < size l)%N -> exists x, pyget l 0 = Ok x by case: l => // x l _; exists x.
have [|x /= ->] := pg (if t then rev (nseq (size s).-2.+1 0%N) else nseq (size s).-2.+1 0%N).
  by rewrite sf size_nseq.
have [|y /= ->] := pg (if t then rev rk0 else rk0); first by rewrite sf sr; clear -s1; lia.
by rewrite /dense_mat (_ : N.ltb sd M32 = false) //; apply/N.ltb_ge.
Qed.
End Refuted.

(* blocked sketching of a dense tensor and of a Tucker tensor with TensorTrainDRMs raises *)
Definition lss : seq (seq nat) := [:: [:: 0; 0]; [:: 1; 1]; [:: 2; 3]]%N.
Definition rss : seq (seq nat) := [:: [:: 0; 0]; [:: 2; 1]; [:: 4; 4]]%N.
Definition blk c X := blocked_stream_sketch tn rnd str off lsq qr X (exL c) (exR c) lss rss.
Theorem C25_blocked_dense_refuted : slices_ok 3 lk lss /\ slices_ok 3 rk rss /\
  blk TensorTrainDRM (Dense ex_dense) = Err ValueError /\ blk TensorTrainDRM tk1 = Err ValueError.
Proof.
split; [|split; [|split; by vm_compute]].
  by split=> // -[|[|[|i]]] [|[|mu]].
by split=> // -[|[|[|i]]] [|[|mu]].
Qed.

(* SparseSignDRM.slice forgets num_non_zero_per_row: the sketch with the full slice of a DRM
   made with one entry per row differs from the sketch with the DRM itself *)
Definition sgn_drm (t : bool) (r : seq nat) : drm Z := the drm0
  (drm_init rnd str off SparseSignDRM ent0 (RTuple r) sh232 t (Some (N.of_nat 5)) None None None (Some [:: 1; 1]%N)).
Definition sl (D : drm Z) a b : drm Z := the drm0 (drm_slice rnd str off D a b).
Theorem C25_sign_nnz_refuted : let D := sgn_drm false lk in let E := sgn_drm true rk in
  exists D' E', [/\ d_nnz D = [:: 1; 1]%N, d_nnz E = [:: 1; 1]%N,
    drm_slice rnd str off D [:: 0; 0]%N lk = Ok D', drm_slice rnd str off E [:: 0; 0]%N rk = Ok E' &
    nums (gsk ex_sparse (Some D') E') <> nums (gsk ex_sparse (Some D) E)].
Proof.
move=> D E; exists (sl D [:: 0; 0]%N lk), (sl E [:: 0; 0]%N rk); split; try by vm_compute.
Qed.

(* DenseGaussianDRM draws its offsets from the constructor argument, but a slice draws them from
   the reduced seed: without a seed, or with the seed 2^32-1, the full slice is another DRM *)
Definition off2 (s : N) (k : nat) : N := N.add (N.modulo s (N.of_nat 7)) (N.of_nat k).
Definition dg_drm (sd : option N) (t : bool) (r : seq nat) : drm Z := the drm0
  (drm_new rnd str off2 DenseGaussianDRM ent0 (RTuple r) sh232 t sd).
Theorem C25_dense_gaussian_refuted : forall sd, sd = None \/ sd = Some (N.sub M32 1) ->
  let D := dg_drm sd false lk in
  drm_new rnd str off2 DenseGaussianDRM ent0 (RTuple lk) sh232 false sd = Ok D /\
  exists2 D', drm_slice rnd str off2 D [:: 0; 0]%N lk = Ok D' &
    [seq ndata M | M <- d_mats D'] <> [seq ndata M | M <- d_mats D].
Proof.
move=> sd hsd D; split; first by rewrite /D; case: hsd => ->; vm_compute.
exists (the drm0 (drm_slice rnd str off2 D [:: 0; 0]%N lk)); first by rewrite /D; case: hsd => ->; vm_compute.
by rewrite /D; case: hsd => -> /eqP; vm_compute.
Qed.

(* ------------------------------------------------------------------ *)
(* Concrete cases that meet the hypotheses of the theorems             *)

(* a sum of a sparse, a TT and a CP tensor, and a nested sum *)
Definition exX : tensor Z := TSum sh232 [:: ex_sparse; TT ex_tt; TSum sh232 [:: CP ex_cp; TT ex_tt2]].
Lemma exX_ok : wf exX /\ right_ok exX /\ exists a, to_numpy exX = Ok a.
Proof. by split; [vm_compute|split; [vm_compute|exists (the (Nd [::] [::]) (to_numpy exX)); vm_compute]]. Qed.

(* the lazily generated classes on a sparse tensor *)
Lemma ex_sign_good : fits (exL SparseSignDRM) 2 ex_sparse /\ fits (exR SparseSignDRM) 2 ex_sparse.
Proof.
change (fits1 (exL SparseSignDRM) 2 ex_sparse /\ fits1 (exR SparseSignDRM) 2 ex_sparse); have [[_ e1] [_ e2]] := (exL_made SparseSignDRM, exR_made SparseSignDRM); rewrite /fits1 e1 e2 /ex_sparse; split=> k hk mu j hm.
  have -> : nth 0%N (d_nnz (exL SparseSignDRM)) mu = nth 0%N lk mu by vm_compute.
  by move=> hj; apply/N.ltb_lt; move: hm hj hk; case: mu => [|[|mu]] // _; case: j => [|[|[|j]]] // _; case: k => [|[|[|k]]] // _; vm_compute.
have -> : nth 0%N (d_nnz (exR SparseSignDRM)) mu = nth 0%N rk mu by vm_compute.
by move=> hj; apply/N.ltb_lt; move: hm hj hk; case: mu => [|[|mu]] // _; case: j => [|[|[|[|j]]]] // _; case: k => [|[|[|k]]] // _; vm_compute.
Qed.
Lemma ex_sparse_fits c : fits (exL c) 2 ex_sparse /\ fits (exR c) 2 ex_sparse.
Proof.
case: c; first exact: ex_tt_fits.
- by change (fits1 (exL DenseGaussianDRM) 2 ex_sparse /\ fits1 (exR DenseGaussianDRM) 2 ex_sparse); have [[_ e1] [_ e2]] := (exL_made DenseGaussianDRM, exR_made DenseGaussianDRM); rewrite /fits1 e1 e2 /ex_sparse.
- by change (fits1 (exL SparseGaussianDRM) 2 ex_sparse /\ fits1 (exR SparseGaussianDRM) 2 ex_sparse); have [[_ e1] [_ e2]] := (exL_made SparseGaussianDRM, exR_made SparseGaussianDRM); rewrite /fits1 e1 e2 /ex_sparse.
exact: ex_sign_good.
Qed.

(* C21, C23: every DRM class on a sparse tensor; TensorTrainDRM on the mixed sum *)
Example C21_nonvacuous_sparse c : exists2 s, gsk ex_sparse (Some (exL c)) (exR c) = Ok s &
  is_sketch tn (exL c) (exR c) sh232 (get (the (Nd [::] [::]) (to_numpy ex_sparse))) s.
Proof.
have [h1 h2] := ex_sparse_fits c.
by apply: C21_streaming_sketch => //; exact: ex_pair.
Qed.
Example C21_nonvacuous_sum : exists2 s, gsk exX (Some (exL TensorTrainDRM)) (exR TensorTrainDRM) = Ok s &
  is_sketch tn (exL TensorTrainDRM) (exR TensorTrainDRM) sh232 (get (the (Nd [::] [::]) (to_numpy exX))) s.
Proof.
have [h1 h2] := ex_tt_fits exX.
by apply: C21_streaming_sketch => //; exact: ex_pair.
Qed.
(* the numbers are not all zero *)
Example C21_numbers : nums (run TensorTrainDRM ex_sparse) =
  Some ([:: [:: -63; 21; 56; -7; -42; -35; 91; 42];
            [:: 0; 0; 0; 0; 0; 0; 0; 0; 0; -42; 14; -28; 0; -27; 9; -18; 0; 0; 0; 0; -66; 54; -106; 14];
            [:: -99; -63; 0; -13; 99; 2] ],
        [:: [:: 126; -42; -112; 14; -189; -84; 329; 119];
            [:: 198; -288; 360; -126; 0; -39; 13; -26; -198; 105; -299; 4] ])%R.
Proof. by vm_compute. Qed.

(* C22: updating *)
Example C22_nonvacuous : let D := exL TensorTrainDRM in let E := exR TensorTrainDRM in
  exists st st2 V c,
  [/\ stream_sketch tn rnd str off rs lsq qr exX (RTuple (d_rank D)) (RTuple (rev (d_rank E))) None None None (Some D) (Some E) ent0 = Ok st,
      stt_add tn rnd str off rs lsq qr st (TT ex_tt2) = Ok st2, tadd exX (TT ex_tt2) = Ok V,
      gsk V (Some D) E = Ok c & [/\ sketch_ st2 = c, left_drm st2 = D & right_drm st2 = E]].
Proof.
move=> D E; have [h1 h2] := ex_tt_fits exX; have [h3 h4] := ex_tt_fits (TT ex_tt2).
apply: (@C22_update Z tn rnd str off rs lsq qr true exX (TT ex_tt2) D E None None None ent0) => //; first exact: ex_pair.
by left=> -[|[|mu]] //; vm_compute.
Qed.

(* C24, C25: the slices lss, rss are admissible, so the blocked sketch of the mixed sum is the
   sketch; for the other classes a sparse tensor *)
Lemma ex_slices : slices_ok 3 lk lss /\ slices_ok 3 rk rss.
Proof. by have [h1 [h2 _]] := C25_blocked_dense_refuted. Qed.
Example C24_nonvacuous c : exists2 s, gsk ex_sparse (Some (exL c)) (exR c) = Ok s & blk c ex_sparse = Ok s.
Proof.
have [[mL _] [mR _]] := (exL_made c, exR_made c); have [h1 h2] := ex_sparse_fits c; have [h3 h4] := ex_slices.
by apply: (@C24_blocked_equal Z tn rnd str off lsq qr true _ _ _ lk rk lss rss rnd_ok).
Qed.
Example C24_nonvacuous_sum : exists2 s, run TensorTrainDRM exX = Ok s & blk TensorTrainDRM exX = Ok s.
Proof.
have [[mL _] [mR _]] := (exL_made TensorTrainDRM, exR_made TensorTrainDRM); have [h1 h2] := ex_tt_fits exX; have [h3 h4] := ex_slices.
by apply: (@C24_blocked_equal Z tn rnd str off lsq qr true _ _ _ lk rk lss rss rnd_ok).
Qed.

(* C26: increase the ranks (2, 3), (4, 4) to (3, 3), (5, 6) *)
Example C26_nonvacuous c : can_increase c -> let D := exL c in let E := exR c in
  exists s st2, [/\ run c ex_sparse = Ok s,
    stt_increase_rank tn rnd str off lsq qr (Sketched s D E) ex_sparse (RInt 3) (RTuple [:: 5; 6]%N) = Ok st2 &
    gsk ex_sparse (Some (left_drm st2)) (right_drm st2) = Ok (sketch_ st2)].
Proof.
move=> hc D E; have [[mL cL] [mR cR]] := (exL_made c, exR_made c); have [h1 h2] := ex_sparse_fits c.
have [s es _] := C21_nonvacuous_sparse c.
have [|||st2 e2 [_ _ _ h _]] := @C26_increase_rank Z tn rnd str off lsq qr true (Sketched s D E) ex_sparse lk rk (RInt 3) (RTuple [:: 5; 6]%N)
   [:: 3; 3]%N [:: 5; 6]%N rnd_ok erefl erefl mL mR _ _ h1 h2 erefl erefl erefl _ es; rewrite ?cL ?cR //.
  by move=> [|[|mu]].
by exists s, st2.
Qed.

Lemma tt_class ent rank s t sd D : drm_new rnd str off TensorTrainDRM ent rank s t sd = Ok D -> d_class D = TensorTrainDRM.
Proof. by rewrite /drm_new /drm_init; case: (process_tt_rank _ _ _) => //= r [<-]. Qed.
(* C27, C46: the default classes, ranks 2 < 5, the left ones trimmed *)
Example C27_nonvacuous : exists2 st, stream_sketch tn rnd str off rs lsq qr (TT ex_tt) (RInt 3) (RInt 5) None None None None None ent0 = Ok st &
  [/\ stt_shape st = sh232, stt_left_rank st = [:: 2; 2]%N /\ stt_right_rank st = [:: 5; 5]%N,
      [seq nshape P | P <- Psi_cores (sketch_ st)] = [:: [:: 1; 2; 5]; [:: 2; 3; 5]; [:: 2; 2; 1]]%N &
      [seq nshape W | W <- Omega_mats (sketch_ st)] = [:: [:: 2; 5]; [:: 2; 5]]%N].
Proof.
apply: (@C27_shapes Z tn rnd str off rs lsq qr true (TT ex_tt) (RInt 3) (RInt 5) [:: 3; 3]%N [:: 5; 5]%N None None None ent0 false rnd_ok) => //.
- by move=> [|[|mu]].
- by move=> D /tt_class e; rewrite /= /fits1 e.
- by move=> E /tt_class e; rewrite /= /fits1 e.
Qed.
Example C46_nonvacuous : exists2 st, stream_sketch tn rnd str off rs lsq qr (TT ex_tt) (RInt 3) (RInt 5) None None None None None ent0 = Ok st &
  exists2 st2, stt_add tn rnd str off rs lsq qr st (CP ex_cp) = Ok st2 &
    stt_left_rank st2 = stt_left_rank st /\ stt_right_rank st2 = stt_right_rank st.
Proof.
apply: (@C46_stream_accepts_and_updates Z tn rnd str off rs lsq qr true (TT ex_tt) (CP ex_cp) (RInt 3) (RInt 5) [:: 3; 3]%N [:: 5; 5]%N None None None ent0 false rnd_ok) => //.
- by move=> [|[|mu]].
- by move=> D /tt_class e; rewrite /= /fits1 e.
- by move=> E /tt_class e; rewrite /= /fits1 e.
Qed.
(* ranks (3, 1) and (2, 5) are not ordered *)
Example C46_nonvacuous_reject : stream_sketch tn rnd str off rs lsq qr (TT ex_tt) (RTuple [:: 3; 1]%N) (RTuple [:: 2; 5]%N) None None None None None ent0 = Err ValueError.
Proof. by apply: (@C46_stream_rejects Z tn rnd str off rs lsq qr (TT ex_tt) _ _ [:: 3; 1]%N [:: 2; 5]%N) => //; [exists 1%N|exists 0%N]. Qed.

(* C32 *)
Example C32_nonvacuous : exists s st2, [/\ run TensorTrainDRM exX = Ok s,
  stt_T (Sketched s (exL TensorTrainDRM) (exR TensorTrainDRM)) = Ok st2 & stt_shape st2 = sh232 ].
Proof.
have [s es hs] := C21_nonvacuous_sum; exists s.
have [|||||st2 e2 [h _ _ _ _]] := @C32_transpose Z tn true (Sketched s (exL TensorTrainDRM) (exR TensorTrainDRM)) (exL TensorTrainDRM) (exR TensorTrainDRM) sh232 _ _ _ _ _ _ hs => //.
by exists st2.
Qed.
(* a 2 x 3 x 4 tensor: its transposed sketch rejects tensors of shape 4 x 3 x 2 *)
Definition tt234 : tensor Z := TT (rnd [:: 2; 3; 4]%N [:: 2; 2]%N 1%num).
Definition tt432 : tensor Z := TT (rnd [:: 4; 3; 2]%N [:: 2; 2]%N 1%num).
Example C32_nonvacuous_refuted :
  (do st <- stream_sketch tn rnd str off rs lsq qr tt234 (RInt 2) (RInt 5) None None None None None ent0;
   do st2 <- stt_T st; Ok (stt_shape st2)) = Ok [:: 4; 3; 2]%N /\
  tshape tt432 = [:: 4; 3; 2]%N /\
  (do st <- stream_sketch tn rnd str off rs lsq qr tt234 (RInt 2) (RInt 5) None None None None None ent0;
   do st2 <- stt_T st; stt_add tn rnd str off rs lsq qr st2 tt432) = Err ValueError.
Proof. by split; [|split]; vm_compute. Qed.

Print Assumptions C23_dense_refuted.
Print Assumptions C23_tucker_refuted.
Print Assumptions C25_dense_refuted.
Print Assumptions C25_dense_gaussian_seed_refuted.
Print Assumptions C25_blocked_dense_refuted.
Print Assumptions C25_sign_nnz_refuted.
Print Assumptions C25_dense_gaussian_refuted.
