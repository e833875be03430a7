(* Properties C21-C27, C32, C33, C46: the streaming sketch.
   Statements are closed by short arguments from SkThy*.v; the specification is SkSpec.v.
   The random number generators, Python's hash and LAPACK are arbitrary functions here
   (universally quantified), so the theorems hold for every seed and every generator; only
   TensorTrain.random is required to return a train of the requested shape and rank
   ([tt_random_ok], proved for the code in Prop_Random.v). *)
From Coq Require Import String Ascii NArith.
From mathcomp Require Import all_ssreflect all_algebra.
From mathcomp Require Import zify.
From Verif Require Import Py Nd NdThy Ein Utils Tensor Hash Sketch Spec TensorThy TensorThy2 TensorThy4 TrimThy RoundThy SkSpec SkThy7 SkThy8 SkThy9 SkThy10 SkThy11 SkThy12 SkThy13 SkThy14 SkThy15 Ex SkEx.
Set Implicit Arguments. Unset Strict Implicit. Unset Printing Implicit Defensive.
Import GRing.Theory.
Local Open Scope ring_scope.

Section Theorems.
Variable R : comRingType.
Variable to_normal : N -> R.
Variable tt_random : seq nat -> seq nat -> N -> seq (nd R).
Variable stream : N -> nat -> R.
Variable offset : N -> nat -> N.
Variable right_seed_of : N -> nat -> N.
Variable lstsq : nd R -> nd R -> res (nd R).
Variable qr_econ : nd R -> res (nd R * nd R).
Notation gs := (general_sketch to_normal lstsq qr_econ).
Notation stream_sketch := (stream_sketch to_normal tt_random stream offset right_seed_of lstsq qr_econ).
Notation stt_add := (stt_add to_normal tt_random stream offset right_seed_of lstsq qr_econ).
Notation made := (made tt_random stream offset).
Notation slice := (drm_slice tt_random stream offset).
Notation increase := (drm_increase_rank tt_random stream offset).
Notation is_sk := (is_sk to_normal).
Notation C0 := (C0 R).
Implicit Types (X Y : tensor R) (D E : drm R) (a : nd R).

Lemma den_numpy X a : wf X -> to_numpy X = Ok a -> nshape a = tshape X /\ forall i, inb (tshape X) i -> den X i = get a i.
Proof. by move=> w e; have [b] := to_numpyE w; rewrite e => -[<-] [_ h1 h2]; split=> // i hi; rewrite h2. Qed.

Lemma is_sk_numpy o D E X a c : wf X -> to_numpy X = Ok a ->
  is_sk o D E (tshape X) (den X) c -> is_sk o D E (tshape X) (get a) c.
Proof. by move=> w e; apply: is_sketch_ext => //; have [_] := den_numpy w e. Qed.

(* ---- C21: every entry of the streaming sketch is the contraction of the represented
   tensor with the matrices of the two DRMs ---- *)
Theorem C21_streaming_sketch X D E a : let d := size (tshape X) in
  wf X -> to_numpy X = Ok a -> (1 < d)%N -> pair_ok D E (tshape X) ->
  fits D d.-1 X -> fits E d.-1 X -> right_ok X ->
  exists2 s, gs X (Some D) E Streaming = Ok s & is_sketch to_normal D E (tshape X) (get a) s.
Proof.
move=> d w ea d1 hp fD fE rX; have [|s es hs] := gsE to_normal lstsq qr_econ _ d1 hp fD fE rX; first exact: wf_gen_rep w.
by exists s => //; apply: (@is_sk_numpy true _ _ X a s w ea).
Qed.

(* sparse tensors with repeated coordinates: every stored entry counts ([den] adds them) *)
Theorem C21_repeated_coordinates X D E : let d := size (tshape X) in
  wf_rep X -> (1 < d)%N -> pair_ok D E (tshape X) ->
  fits D d.-1 X -> fits E d.-1 X -> right_ok X ->
  exists2 s, gs X (Some D) E Streaming = Ok s & is_sketch to_normal D E (tshape X) (den X) s.
Proof. by move=> d w d1 hp fD fE rX; apply: gsE. Qed.

(* dense arrays: also a contraction, but the right matrix is read in another order
   (right_fun_dense) *)
Theorem C21_dense X D E a : let d := size (tshape X) in
  wf X -> to_numpy X = Ok a -> (1 < d)%N -> pair_ok D E (tshape X) ->
  fits D d.-1 X -> fits E d.-1 X -> all_dense X ->
  exists2 s, gs X (Some D) E Streaming = Ok s &
    is_sketch_with (left_fun to_normal D) (right_fun_dense to_normal E (tshape X)) (drm_cols D)
      (fun mu => drm_cols E (d - mu.+2)) (tshape X) (get a) s.
Proof.
move=> d w ea d1 hp fD fE rX; have [|s es hs] := gs_denseE to_normal lstsq qr_econ _ d1 hp fD fE rX; first exact: wf_gen_rep w.
by exists s => //; apply: (@is_sk_numpy false _ _ X a s w ea).
Qed.

(* the entry point stream_sketch with default DRMs: for every tensor, all positive ranks in
   strict order and every seed *)
Theorem C21_stream_sketch_default X a l r lk rk seed ent (lbig : bool) :
  let sh := tshape X in let d := size sh in
  tt_random_ok tt_random ->
  wf X -> to_numpy X = Ok a -> right_ok X -> (1 < d)%N -> all (fun n => 0 < n)%N sh ->
  process_tt_rank l sh false = Ok lk -> process_tt_rank r sh false = Ok rk ->
  all (fun n => 0 < n)%N lk -> all (fun n => 0 < n)%N rk ->
  (forall mu, (mu < d.-1)%N -> if lbig then (nth 0 rk mu < nth 0 lk mu)%N else (nth 0 lk mu < nth 0 rk mu)%N) ->
  exists2 st, stream_sketch X l r seed None None None None ent = Ok st &
    [/\ made false sh (trim_if (~~ lbig) sh lk) (left_drm st), made true sh (trim_if lbig sh rk) (right_drm st),
        d_class (left_drm st) = TensorTrainDRM, d_class (right_drm st) = TensorTrainDRM &
        is_sketch to_normal (left_drm st) (right_drm st) sh (get a) (sketch_ st)].
Proof.
move=> sh d hr w ea rX d1 hsh pl pr pol por hb.
have s0 : (0 < size sh)%N by clear -d1; lia.
have aa c rk0 sd : new_args TensorTrainDRM rk0 sd -> c = TensorTrainDRM -> new_args c rk0 sd by move=> ? ->.
have tt0 rk0 sd : new_args TensorTrainDRM rk0 sd by split.
have pt b (k : seq nat) : size k = (size sh).-1 -> all (fun n => 0 < n)%N k -> all (fun n => 0 < n)%N (trim_if b sh k) /\ size (trim_if b sh k) = (size sh).-1.
  by move=> sk hk; rewrite /trim_if; case: b => //; have [h1 h2 _ _] := trim_bounds hsh hk s0 sk; rewrite h1.
have [_ slk] := process_size pl erefl; have [_ srk] := process_size pr erefl.
have [pl1 pl2] := pt (~~ lbig) lk slk pol; have [pr1 pr2] := pt lbig rk srk por.
have mk t k ent0 sd D : size k = (size sh).-1 -> all (fun n => 0 < n)%N k ->
   drm_new tt_random stream offset TensorTrainDRM ent0 (RTuple k) sh t (Some sd) = Ok D ->
   d_class D = TensorTrainDRM /\ fits D d.-1 X.
  move=> sk hk e; have hp := process_rtuple s0 sk.
  have hm : made t sh k D by exists TensorTrainDRM, ent0, (RTuple k), (Some sd).
  have [D0 [e0 [ec _ _ _] _ _]] := drm_newE stream offset hr ent0 t hp (tt0 k (Some sd)).
  have cD : d_class D = TensorTrainDRM by move: e0; rewrite e => -[->].
  by split=> //; apply: (fits_tt hr X hm cD hk).
have [||||st es [mD mE [cD cE] _ hsk]] := @stream_newE R to_normal tt_random stream offset right_seed_of lstsq qr_econ hr
   true X l r lk rk seed None None ent (wf_gen_rep w) rX d1 hsh pl pr pol por lbig hb.
- exact: tt0.
- exact: tt0.
- by move=> D /(mk _ _ _ _ _ pl2 pl1)[].
- by move=> E /(mk _ _ _ _ _ pr2 pr1)[].
exists st => //; split=> //; exact: (@is_sk_numpy true _ _ X a _ w ea).
Qed.

(* ---- C22: linearity ---- *)
(* a sum of tensors in any formats (also dense, Tucker and nested sums): if the sketches of the
   summands exist and have the shapes given by the DRMs, the sketch of the sum exists and is
   their entrywise sum *)
Theorem C22_sum_of_sketches (s : seq nat) (Xs : seq (tensor R)) D E (ss : seq (container R)) :
  Xs <> [::] -> (forall X, List.In X Xs -> tshape X = s) ->
  size (d_rank D) = (size s).-1 -> size (d_rank E) = (size s).-1 ->
  mapM (fun X => gs X (Some D) E Streaming) Xs = Ok ss ->
  (forall c, List.In c ss -> shaped D E s c) ->
  exists2 c, gs (TSum s Xs) (Some D) E Streaming = Ok c & [/\ shaped D E s c,
    (forall mu i, (mu < (size s).-1)%N -> inb (sh2 D E mu) i ->
       get (nth C0 (Omega_mats c) mu) i = \sum_(t <- ss) get (nth C0 (Omega_mats t) mu) i) &
    (forall mu i, (mu < size s)%N -> inb (sh3 D E s mu) i ->
       get (nth C0 (Psi_cores c) mu) i = \sum_(t <- ss) get (nth C0 (Psi_cores t) mu) i)].
Proof. exact: gs_sum. Qed.

(* stt + Y is the sketch of X + Y: [o] says which of the two supported orders of the right
   modes X and Y use (true: sparse, TT, CP and their sums; false: dense arrays) *)
Theorem C22_update o X Y D E seed lt rt ent : let s := tshape X in let d := size s in
  wf_rep X -> wf_rep Y -> tshape Y = s -> (1 < d)%N -> pair_ok D E s -> strict_ranks D E d ->
  fits D d.-1 X -> fits E d.-1 X -> order_ok o X -> fits D d.-1 Y -> fits E d.-1 Y -> order_ok o Y ->
  exists st st2 Z c,
  [/\ stream_sketch X (RTuple (d_rank D)) (RTuple (rev (d_rank E))) seed lt rt (Some D) (Some E) ent = Ok st,
      stt_add st Y = Ok st2, tadd X Y = Ok Z, gs Z (Some D) E Streaming = Ok c &
      [/\ sketch_ st2 = c, left_drm st2 = D & right_drm st2 = E]].
Proof.
move=> s d wX wY sY d1 hp hs fDX fEX oX fDY fEY oY.
have [st es [lD rE hsk hgs]] := stream_givenE to_normal tt_random stream offset right_seed_of lstsq qr_econ seed lt rt ent wX d1 hp fDX fEX oX hs.
have [||||||||st2 es2 [h1 h2 h3]] := @stt_addE R to_normal tt_random stream offset right_seed_of lstsq qr_econ o st Y (den X); rewrite ?lD ?rE ?sY //.
have [|Z eZ [wZ sZ eqZ dZ]] := taddE wX wY; first by rewrite sY.
have summ (P : tensor R -> bool) : (forall s0 l, P (TSum s0 l) = all P l) -> P X -> P Y -> P Z.
  move=> hP pX pY; rewrite eqZ hP all_cat; apply/andP; split.
    by move: pX; case: (X) => [?|???|?|?|??|??] /=; rewrite ?hP // => ->.
  by move: pY; case: (Y) => [?|???|?|?|??|??] /=; rewrite ?hP // => ->.
have fsumm G : fits G d.-1 X -> fits G d.-1 Y -> fits G d.-1 Z.
  move=> pX pY; rewrite eqZ; apply/fits_sumE => x hx0; case: (List.in_app_or _ _ _ hx0) => {hx0} hx.
    by case: (X) pX hx => [?|???|?|?|??|??] pX; try (by case=> [<-|//]); apply: ((fits_sumE _ _ _ _).1 pX).
  by case: (Y) pY hx => [?|???|?|?|??|??] pY; try (by case=> [<-|//]); apply: ((fits_sumE _ _ _ _).1 pY).
have oZ : order_ok o Z.
  move: oX oY; rewrite /order_ok; case: (o) => oX oY; apply: summ oX oY => s0 l /=; by elim: l => //= x l ->.
have [|||||c ec hc] := @gs_isk R to_normal lstsq qr_econ o D E Z wZ; rewrite ?sZ //; try exact: fsumm.
exists st, st2, Z, c; split=> //; split; rewrite ?h1 ?h2 //.
move: hc; rewrite sZ => hc.
have {}h3 : is_sk o D E s (den Z) (sketch_ st2).
  by move: h3; rewrite sY lD rE; apply: is_sketch_ext => // i hi; rewrite dZ.
have [e1 e2] := is_sketch_unique h3 hc.
have -> : sketch_ st2 = mk_container (Psi_cores (sketch_ st2)) (Omega_mats (sketch_ st2)).
  move: es2; rewrite /Sketch.stt_add; case: (stream_sketch _ _ _ _ _ _ _ _ _) => //= st1.
  by rewrite /container_add; case: (mapM _ _) => //= Ps; case: (mapM _ _) => //= Os [<-].
by rewrite e1 e2 -(gs_mk ec).
Qed.

(* the order of updates does not matter *)
Theorem C22_update_order o st Y Z x : let s := tshape Y in let d := size s in
  let D := left_drm st in let E := right_drm st in
  wf_rep Y -> wf_rep Z -> tshape Z = s -> (1 < d)%N -> pair_ok D E s -> strict_ranks D E d ->
  fits D d.-1 Y -> fits E d.-1 Y -> order_ok o Y -> fits D d.-1 Z -> fits E d.-1 Z -> order_ok o Z ->
  is_sk o D E s x (sketch_ st) ->
  exists u, (do v <- stt_add st Y; stt_add v Z) = Ok u /\ (do v <- stt_add st Z; stt_add v Y) = Ok u.
Proof.
move=> s d D E wY wZ sZ d1 hp hs fDY fEY oY fDZ fEZ oZ hx.
pose add := @stt_addE R to_normal tt_random stream offset right_seed_of lstsq qr_econ o.
have [u1 e1 [l1 r1 h1]] := add st Y x wY d1 hp fDY fEY oY hs hx.
have [|||||||u2 e2 [l2 r2 h2]] := add st Z x wZ; rewrite ?sZ //.
have [|||||||u12 e12 [l12 r12 h12]] := add u1 Z (fun i => x i + den Y i) wZ; rewrite ?l1 ?r1 ?sZ //.
have [|||||||u21 e21 [l21 r21 h21]] := add u2 Y (fun i => x i + den Z i) wY; rewrite ?l2 ?r2 //; first by move: h2; rewrite sZ.
rewrite e1 e2 /= e12 e21; exists u12; split=> //.
have mk st0 W st1 : stt_add st0 W = Ok st1 -> sketch_ st1 = mk_container (Psi_cores (sketch_ st1)) (Omega_mats (sketch_ st1)).
  rewrite /Sketch.stt_add; case: (stream_sketch _ _ _ _ _ _ _ _ _) => //= st2.
  by rewrite /container_add; case: (mapM _ _) => //= Ps; case: (mapM _ _) => //= Os [<-].
have [ea eb] : Psi_cores (sketch_ u12) = Psi_cores (sketch_ u21) /\ Omega_mats (sketch_ u12) = Omega_mats (sketch_ u21).
  move: h12 h21; rewrite l1 r1 l2 r2 sZ => h12 h21; apply: is_sketch_unique h12 _.
  by apply: is_sketch_ext h21 => // i _; rewrite addrAC.
congr Ok; have := mk _ _ _ e12; have := mk _ _ _ e21; rewrite ea eb => <-.
case: u12 l12 r12 {e12 h12 ea eb} => ? ? ? /= -> ->; case: u21 l21 r21 {e21 h21} => ? ? ? /= -> -> ->.
by rewrite l1 r1 l2 r2.
Qed.

(* ---- C23: the sketch depends only on the represented tensor ---- *)
Theorem C23_format_independent o X Y D E a : let s := tshape X in let d := size s in
  wf X -> wf Y -> to_numpy X = Ok a -> to_numpy Y = Ok a -> (1 < d)%N -> pair_ok D E s ->
  fits D d.-1 X -> fits E d.-1 X -> fits D d.-1 Y -> fits E d.-1 Y -> order_ok o X -> order_ok o Y ->
  exists2 c, gs X (Some D) E Streaming = Ok c & gs Y (Some D) E Streaming = Ok c.
Proof.
move=> s d wX wY eX eY d1 hp fDX fEX fDY fEY oX oY.
have sY : tshape Y = s by have [<- _] := den_numpy wY eY; have [-> _] := den_numpy wX eX.
have [c ec hc] := gs_isk to_normal lstsq qr_econ (wf_gen_rep wX) d1 hp fDX fEX oX.
have [|||||c' ec' hc'] := @gs_isk R to_normal lstsq qr_econ o D E Y (wf_gen_rep wY); rewrite ?sY //.
exists c => //; rewrite ec' (gs_mk ec) (gs_mk ec'); congr (Ok (mk_container _ _)).
  by have [] := is_sketch_unique (is_sk_numpy wY eY hc') (_ : is_sk o D E (tshape Y) (get a) c); rewrite ?sY //; apply: is_sk_numpy eX hc.
by have [] := is_sketch_unique (is_sk_numpy wY eY hc') (_ : is_sk o D E (tshape Y) (get a) c); rewrite ?sY //; apply: is_sk_numpy eX hc.
Qed.

(* ---- C24: blocked sketching equals sketching at once ---- *)
Theorem C24_blocked o X D E lk rk (ls rs : seq (seq nat)) : let s := tshape X in let d := size s in
  tt_random_ok tt_random -> wf_rep X -> (1 < d)%N ->
  made false s lk D -> made true s rk E -> fits D d.-1 X -> fits E d.-1 X ->
  sliceable D X -> sliceable E X -> order_ok o X -> slices_ok d lk ls -> slices_ok d rk rs ->
  exists c c', [/\ gs X (Some D) E Streaming = Ok c,
     blocked_stream_sketch to_normal tt_random stream offset lstsq qr_econ X D E ls rs = Ok c' &
     Psi_cores c' = Psi_cores c /\ Omega_mats c' = Omega_mats c].
Proof.
move=> s d hr w d1 mD mE fD fE sD sE oX hl hR.
have [[gD sD' tD _] _] := made_good hr mD; have [[gE sE' tE _] _] := made_good hr mE.
have [c ec hc] := gs_isk to_normal lstsq qr_econ w d1 (And5 sD' sE' (conj tD tE) gD gE) fD fE oX.
have [c' ec' hc'] := blockedE to_normal lstsq qr_econ hr w d1 mD mE fD fE sD sE oX hl hR.
by exists c, c'; split=> //; apply: is_sketch_unique hc' hc.
Qed.

(* ---- C25: the sketch made with sliced DRMs is the block of columns of the sketch ---- *)
Theorem C25_slice o X D E lk rk (a b a' b' : seq nat) : let s := tshape X in let d := size s in
  tt_random_ok tt_random -> wf_rep X -> (1 < d)%N ->
  made false s lk D -> made true s rk E -> fits D d.-1 X -> fits E d.-1 X ->
  sliceable D X -> sliceable E X -> order_ok o X ->
  size a = d.-1 -> size b = d.-1 -> size a' = d.-1 -> size b' = d.-1 ->
  (forall mu, (mu < d.-1)%N -> (nth 0 a mu <= nth 0 b mu <= nth 0 lk mu)%N /\ (nth 0 a' mu <= nth 0 b' mu <= nth 0 rk mu)%N) ->
  exists D' E' c c', [/\ slice D a b = Ok D', slice E a' b' = Ok E',
    gs X (Some D) E Streaming = Ok c, gs X (Some D') E' Streaming = Ok c' &
    let l1 := at_left (nth 0%N a) 0%N in let l2 := at_left (nth 0%N b) 1%N in
    let r1 := at_right (nth 0%N a') 0%N d in let r2 := at_right (nth 0%N b') 1%N d in
    (forall mu, (mu < d.-1)%N ->
       nshape (nth C0 (Omega_mats c') mu) = [:: nth 0 b mu - nth 0 a mu; nth 0 b' mu - nth 0 a' mu]%N /\
       forall x y, (x < nth 0 b mu - nth 0 a mu)%N -> (y < nth 0 b' mu - nth 0 a' mu)%N ->
        get (nth C0 (Omega_mats c') mu) [:: x; y] =
        get (nth C0 (Omega_mats c) mu) [:: nth 0 a mu + x; nth 0 a' mu + y]%N) /\
    (forall mu, (mu < d)%N ->
       nshape (nth C0 (Psi_cores c') mu) = [:: l2 mu - l1 mu; nth 0 s mu; r2 mu - r1 mu]%N /\
       forall x k y, (x < l2 mu - l1 mu)%N -> (k < nth 0 s mu)%N -> (y < r2 mu - r1 mu)%N ->
        get (nth C0 (Psi_cores c') mu) [:: x; k; y] =
        get (nth C0 (Psi_cores c) mu) [:: l1 mu + x; k; r1 mu + y]%N)].
Proof.
move=> s d hr w d1 mD mE fD fE sD sE oX sa sb sa' sb' hw.
have [[gD sD' tD rD] slk] := made_good hr mD; have [[gE sE' tE rE] srk] := made_good hr mE.
have [c ec hc] := gs_isk to_normal lstsq qr_econ w d1 (And5 sD' sE' (conj tD tE) gD gE) fD fE oX.
have wl : win_args d.-1 a b lk by split=> // mu /hw[].
have wr : win_args d.-1 a' b' rk by split=> // mu /hw[].
have [D' eD' [[gD1 sD1 tD1] fD1 cD1 eD1]] := made_slice to_normal hr mD wl.
have [E' eE' [[gE1 sE1 tE1] fE1 cE1 eE1]] := made_slice to_normal hr mE wr.
have [c' ec' hc'] := gs_isk to_normal lstsq qr_econ w d1 (And5 sD1 sE1 (conj tD1 tE1) gD1 gE1) (fD1 _ _ sD fD) (fE1 _ _ sE fE) oX.
have {}cD1 mu : (mu < d.-1)%N -> drm_cols D' mu = (nth 0 b mu - nth 0 a mu)%N by move=> hm; rewrite cD1.
have {}cE1 mu : (mu < d.-1)%N -> drm_cols E' (d - mu.+2) = (nth 0 b' mu - nth 0 a' mu)%N.
  move=> hm; rewrite cE1 ?(flip_at sa' hm) ?(flip_at sb' hm) //; rewrite -/d; clear -hm; lia.
have {}hc' : is_sketch_with (fun mu i x => left_fun to_normal D mu i (nth 0 a mu + x)%N)
     (fun mu j y => gfam to_normal o E s mu j (nth 0 a' mu + y)%N)
     (fun mu => nth 0 b mu - nth 0 a mu)%N (fun mu => nth 0 b' mu - nth 0 a' mu)%N s (den X) c'.
  apply: is_sketch_ext hc' => // mu.
  - by move=> i x hm hi hx; rewrite /left_fun eD1 // /drm_dims tD1 sD1.
  - by move=> j y hm hj hy; rewrite (gfam_slice (E := E) o sE1 tE1 sa').
have lc mu : (mu < d.-1)%N -> nth 0%N lk mu = drm_cols D mu by move=> hm; rewrite /drm_cols rD.
have rc mu : (mu < d.-1)%N -> nth 0%N rk mu = drm_cols E (d - mu.+2) by move=> hm; rewrite /drm_cols rE flip_at.
exists D', E', c, c'; split=> //; case: hc hc' => _ _ hP hO [_ _ hP' hO']; split=> mu hm.
  have [_ e1 h1] := hO' mu hm; have [_ e2 h2] := hO mu hm; split=> // x y hx hy.
  have [ha hb] := hw mu hm; rewrite h1 // h2 //; rewrite -?lc -?rc //; clear -hx hy ha hb; lia.
have [_ e1 h1] := hP' mu hm; have [_ e2 h2] := hP mu hm.
have el : (at_left (nth 0 b) 1 mu - at_left (nth 0 a) 0 mu = at_left (fun mu => nth 0 b mu - nth 0 a mu) 1 mu)%N by case: (mu).
have er : (at_right (nth 0 b') 1 d mu - at_right (nth 0 a') 0 d mu = at_right (fun mu => nth 0 b' mu - nth 0 a' mu) 1 d mu)%N.
  by rewrite /at_right; case: ifP.
rewrite el er; split=> // x k y hx hk hy; rewrite h1 // h2 //.
- by apply: Psi_of_ext => // i hi; [case: (mu) => //|rewrite /at_right; case: ifP].
- move: hm hx; clear -hw lc d1; case: mu => [|mu] hm /=; first by lia.
  by have [|ha _] := hw mu; [|rewrite -lc]; try (clear -hm; lia); move: ha; clear; lia.
- move: hy; rewrite /at_right; case: ifP => hd; last by clear; lia.
  by have [_ hb] := hw mu hd; rewrite -rc //; move: hb; clear; lia.
Qed.
End Theorems.
Print Assumptions C21_streaming_sketch.
Print Assumptions C21_repeated_coordinates.
Print Assumptions C21_dense.
Print Assumptions C21_stream_sketch_default.
Print Assumptions C22_sum_of_sketches.
Print Assumptions C22_update.
Print Assumptions C22_update_order.
Print Assumptions C23_format_independent.
Print Assumptions C24_blocked.
Print Assumptions C25_slice.
