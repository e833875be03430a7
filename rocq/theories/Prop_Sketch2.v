(* Properties C24 (full objects), C26, C27, C32, C33, C46: operations on streaming sketches. *)
From Coq Require Import String Ascii NArith.
From mathcomp Require Import all_ssreflect all_algebra.
From mathcomp Require Import zify.
From Verif Require Import Py Nd NdThy Ein Utils Tensor Hash Sketch Spec TensorThy TensorThy2 TensorThy4 TrimThy RoundThy SkSpec SkThy7 SkThy8 SkThy9 SkThy10 SkThy11 SkThy12 SkThy13 SkThy14 SkThy15 Ex SkEx Prop_Sketch.
Set Implicit Arguments. Unset Strict Implicit. Unset Printing Implicit Defensive.
Import GRing.Theory.
Local Open Scope ring_scope.

Lemma bindI (A B : Type) (m : res A) (f : A -> res B) y : bind m f = Ok y -> exists2 x, m = Ok x & f x = Ok y.
Proof. by case: m => //= x e; exists x. Qed.

Section Theorems.
Variable R : comRingType.
Variable to_normal : N -> R.
Variable tt_random : seq nat -> seq nat -> N -> seq (nd R).
Variable stream : N -> nat -> R.
Variable offset : N -> nat -> N.
Variable right_seed_of : N -> nat -> N.
Variable lstsq : nd R -> nd R -> res (nd R).
Variable qr_econ : nd R -> res (nd R * nd R).
Notation gs := (general_sketch to_normal lstsq qr_econ).
Notation stream_sketch := (stream_sketch to_normal tt_random stream offset right_seed_of lstsq qr_econ).
Notation orthogonal_sketch := (orthogonal_sketch to_normal tt_random stream offset right_seed_of lstsq qr_econ).
Notation stt_add := (stt_add to_normal tt_random stream offset right_seed_of lstsq qr_econ).
Notation increase_rank := (stt_increase_rank to_normal tt_random stream offset lstsq qr_econ).
Notation blocked := (blocked_stream_sketch to_normal tt_random stream offset lstsq qr_econ).
Notation made := (made tt_random stream offset).
Notation slice := (drm_slice tt_random stream offset).
Notation increase := (drm_increase_rank tt_random stream offset).
Notation is_sk := (is_sk to_normal).
Notation C0 := (C0 R).
Implicit Types (X Y : tensor R) (D E : drm R) (a : nd R).

Lemma put_fields ls rs (bs : seq (nat * nat * container R)) c c' : foldM (put_block ls rs) c bs = Ok c' ->
  [/\ c_shape c' = c_shape c, c_left_rank c' = c_left_rank c & c_right_rank c' = c_right_rank c].
Proof.
elim: bs c => [|b bs IH] c /=; first by case=> <-.
case e : (put_block ls rs c b) => [c1|] //= h; have [-> -> ->] := IH c1 h; move: e {h IH}; rewrite /put_block.
case: b => [[i j] b].
do 4 (case: (pyget _ _) => //= ?); case: (foldM _ _ _) => //= ?; case: (foldM _ _ _) => //= ?.
by case=> <-.
Qed.
Lemma assemble_fields ls rs s bs (c : container R) : assemble_blocked ls rs s bs = Ok c ->
  [/\ c_shape c = s, c_left_rank c = last [::] ls & c_right_rank c = last [::] rs].
Proof. by rewrite /assemble_blocked; case: ls => // l ls; case: rs => // r rs /put_fields[]. Qed.

Lemma increase_fields st X newl newr nl nr st2 : increase_rank st X newl newr = Ok st2 ->
  process_tt_rank newl (tshape X) false = Ok nl -> process_tt_rank newr (tshape X) false = Ok nr ->
  [/\ c_shape (sketch_ st2) = tshape X, c_left_rank (sketch_ st2) = nl & c_right_rank (sketch_ st2) = nr].
Proof.
rewrite /stt_increase_rank /bind => + pl pr; rewrite pl pr.
case: (drm_increase_rank _ _ _ _ _) => // l; case: (drm_increase_rank _ _ _ _ _) => // r.
case: (blocked_components _ _ _ _ _ _ _ _ _ _ _ _) => // bs.
set ab := assemble_blocked _ _ _ _; case ea : ab => [c|] // -[<-] /=.
by have [-> -> ->] := assemble_fields ea.
Qed.

(* an assembled container with the right entries is the sketch itself *)
Lemma assembled_eq o D E s x (c c' : container R) : (0 < size s)%N -> size (d_rank D) = (size s).-1 -> size (d_rank E) = (size s).-1 ->
  is_sk o D E s x c -> is_sk o D E s x c' -> c = mk_container (Psi_cores c) (Omega_mats c) ->
  [/\ c_shape c' = s, c_left_rank c' = d_rank D & c_right_rank c' = rev (d_rank E)] -> c' = c.
Proof.
move=> s0 sD sE hc hc' mc [h1 h2 h3].
have [e1 e2] := is_sketch_unique hc' hc; have [k1 k2 k3] := mk_ranks hc mc s0.
have r1 : c_left_rank c = d_rank D.
  rewrite k2; apply: (@eq_from_nth _ 0%N); rewrite size_map size_iota ?sD // => mu hm.
  by rewrite (nth_map 0%N) ?size_iota // nth_iota.
have r2 : c_right_rank c = rev (d_rank E).
  rewrite k3; apply: (@eq_from_nth _ 0%N); rewrite size_map size_iota ?size_rev ?sE // => mu hm.
  rewrite (nth_map 0%N) ?size_iota // nth_iota // add0n nth_rev ?sE // /drm_cols; congr nth; clear -hm; lia.
case: c' h1 h2 h3 e1 e2 {hc'} => ? ? ? ? ? /= -> -> -> -> ->.
by case: c k1 r1 r2 {hc mc k2 k3} => ? ? ? ? ? /= -> -> ->.
Qed.

(* ---- C24: the blocked sketch is the same object, including its shape and ranks ---- *)
Theorem C24_blocked_equal o X D E lk rk (ls rs : seq (seq nat)) : let s := tshape X in let d := size s in
  tt_random_ok tt_random -> wf_rep X -> (1 < d)%N ->
  made false s lk D -> made true s rk E -> fits D d.-1 X -> fits E d.-1 X ->
  sliceable D X -> sliceable E X -> order_ok o X -> slices_ok d lk ls -> slices_ok d rk rs ->
  exists2 c, gs X (Some D) E Streaming = Ok c & blocked X D E ls rs = Ok c.
Proof.
move=> s d hr w d1 mD mE fD fE sD sE oX hl hR.
have [[gD sD' tD rD] slk] := made_good hr mD; have [[gE sE' tE rE] srk] := made_good hr mE.
have [c ec hc] := gs_isk to_normal lstsq qr_econ w d1 (And5 sD' sE' (conj tD tE) gD gE) fD fE oX.
have [c' ec' hc'] := blockedE to_normal lstsq qr_econ hr w d1 mD mE fD fE sD sE oX hl hR.
exists c => //; rewrite ec'; congr Ok.
apply: (assembled_eq (o := o) (D := D) (E := E) _ _ _ hc hc' (gs_mk ec)).
- by clear -d1; rewrite -/s -/d; lia.
- by rewrite rD.
- by rewrite rE size_rev.
move: ec'; rewrite /blocked_stream_sketch; case: (blocked_components _ _ _ _ _ _ _ _ _ _ _ _) => //= bs /assemble_fields[-> -> ->].
by case: hl hR => [_ _ _ -> _] [_ _ _ -> _]; rewrite rD rE /flip revK.
Qed.

(* ---- C26: increase_rank ---- *)
Theorem C26_increase_rank o st X lk rk newl newr nl nr : let s := tshape X in let d := size s in
  let D := left_drm st in let E := right_drm st in
  tt_random_ok tt_random -> wf_rep X -> (1 < d)%N -> made false s lk D -> made true s rk E ->
  can_increase (d_class D) -> can_increase (d_class E) ->
  fits D d.-1 X -> fits E d.-1 X -> order_ok o X ->
  process_tt_rank newl s false = Ok nl -> process_tt_rank newr s false = Ok nr ->
  (forall mu, (mu < d.-1)%N -> (nth 0 lk mu <= nth 0 nl mu)%N /\ (nth 0 rk mu <= nth 0 nr mu)%N) ->
  gs X (Some D) E Streaming = Ok (sketch_ st) ->
  exists2 st2, increase_rank st X newl newr = Ok st2 &
    [/\ increase D nl = Ok (left_drm st2), increase E nr = Ok (right_drm st2),
        d_rank (left_drm st2) = nl /\ rev (d_rank (right_drm st2)) = nr,
        gs X (Some (left_drm st2)) (right_drm st2) Streaming = Ok (sketch_ st2) &
     (* the leading blocks are the old arrays *)
     (forall (mu a b : nat), (mu < d.-1)%N -> (a < nth 0 lk mu)%N -> (b < nth 0 rk mu)%N ->
        get (nth C0 (Omega_mats (sketch_ st2)) mu) [:: a; b] = get (nth C0 (Omega_mats (sketch_ st)) mu) [:: a; b]) /\
     (forall (mu a k b : nat), (mu < d)%N -> (a < at_left (nth 0 lk) 1 mu)%N -> (k < nth 0 s mu)%N -> (b < at_right (nth 0 rk) 1 d mu)%N ->
        get (nth C0 (Psi_cores (sketch_ st2)) mu) [:: a; k; b] = get (nth C0 (Psi_cores (sketch_ st)) mu) [:: a; k; b])].
Proof.
move=> s d D E hr w d1 mD mE cD cE fD fE oX pl pr hle es.
have [[gD sD tD rD] slk] := made_good hr mD; have [[gE sE tE rE] srk] := made_good hr mE.
have [c ec hc] := gs_isk to_normal lstsq qr_econ w d1 (And5 sD sE (conj tD tE) gD gE) fD fE oX.
rewrite es in ec; case: ec => ec; rewrite -ec in hc.
have [st2 e2 [eD2 eE2 mD2 mE2 hsk]] := stt_increaseE lstsq qr_econ hr w d1 mD mE cD cE fD fE oX pl pr hle hc.
have [[gD2 sD2 tD2 rD2] snl] := made_good hr mD2; have [[gE2 sE2 tE2 rE2] snr] := made_good hr mE2.
have [D2 eD3 [_ cD2 hD2]] := made_increase to_normal hr mD cD snl; rewrite eD2 in eD3; case: eD3 => eD3.
have [E2 eE3 [_ cE2 hE2]] := made_increase to_normal hr mE cE snr; rewrite eE2 in eE3; case: eE3 => eE3.
rewrite -eD3 in cD2 hD2; rewrite -eE3 in cE2 hE2.
have fD2 : fits (left_drm st2) d.-1 X by apply: (fits_class cD2).
have fE2 : fits (right_drm st2) d.-1 X by apply: (fits_class cE2).
have [c2 ec2 hc2] := gs_isk to_normal lstsq qr_econ w d1 (And5 sD2 sE2 (conj tD2 tE2) gD2 gE2) fD2 fE2 oX.
exists st2 => //; split=> //; first by rewrite rD2 rE2 /flip revK.
  rewrite ec2; congr Ok; apply/esym.
  apply: (assembled_eq (o := o) (D := left_drm st2) (E := right_drm st2) _ _ _ hc2 hsk (gs_mk ec2)).
  - by clear -d1; rewrite -/s -/d; lia.
  - by rewrite rD2.
  - by rewrite rE2 size_rev.
  by have [-> -> ->] := increase_fields e2 pl pr; rewrite rD2 rE2 /flip revK.
have eL mu i x : (mu < d.-1)%N -> inb (take mu.+1 s) i -> (x < nth 0 lk mu)%N -> left_fun to_normal (left_drm st2) mu i x = left_fun to_normal D mu i x.
  move=> hm hi hx; rewrite /left_fun hD2 ?/drm_dims ?tD2 ?sD2 //=.
  exact: leq_trans (proj1 (hle mu hm)).
have eR mu j x : (mu < d.-1)%N -> inb (drop mu.+1 s) j -> (x < nth 0 rk mu)%N -> gfam to_normal o (right_drm st2) s mu j x = gfam to_normal o E s mu j x.
  move=> hm hj hx; have hm' : (d - mu.+2 < d.-1)%N by clear -hm; lia.
  have ht := right_dims sE2 tE2 hm.
  have hx2 : (x < nth 0 nr mu)%N by apply: leq_trans (proj2 (hle mu hm)).
  rewrite /gfam; case: (o); rewrite /right_fun /right_fun_dense hE2 ?ht ?inb_rev ?flip_at //.
  by apply: inb_unravel; rewrite prods_rev; apply: ravel_lt.
have cl mu : drm_cols D mu = nth 0%N lk mu by rewrite /drm_cols rD.
have cl2 mu : drm_cols (left_drm st2) mu = nth 0%N nl mu by rewrite /drm_cols rD2.
have cr mu : (mu < d.-1)%N -> drm_cols E (d - mu.+2) = nth 0%N rk mu by move=> hm; rewrite /drm_cols rE flip_at.
have cr2 mu : (mu < d.-1)%N -> drm_cols (right_drm st2) (d - mu.+2) = nth 0%N nr mu by move=> hm; rewrite /drm_cols rE2 flip_at.
case: hc hsk => _ _ hP hO [_ _ hP2 hO2]; split=> [mu a b hm ha hb|mu a k b hm ha hk hb].
  have [_ _ ->] := hO2 mu hm; last 2 first.
  - by rewrite cl2; apply: leq_trans (proj1 (hle mu hm)).
  - by rewrite cr2 //; apply: leq_trans (proj2 (hle mu hm)).
  have [_ _ ->] := hO mu hm; rewrite ?cl ?cr //.
  by apply: Omega_of_ext => // i hi; [apply: eL|apply: eR].
have [_ _ ->] := hP2 mu hm => //.
- have [_ _ ->] := hP mu hm => //.
  + apply: Psi_of_ext => // i hi.
      by case: (mu) hm ha hi => [|m] //= hm ha hi; apply: eL => //; clear -hm; lia.
    by move: hb; rewrite /at_right; case: ifP => // hd hb; apply: eR.
  + by case: (mu) ha => [|m] //=; rewrite cl.
  by move: hb; rewrite /at_right; case: ifP => // hd hb; rewrite cr.
- case: (mu) hm ha => [|m] //= hm ha; rewrite cl2; apply: leq_trans ha _.
  by apply: (proj1 (hle m _)); clear -hm; lia.
move: hb; rewrite /at_right; case: ifP => // hd hb; rewrite cr2 //.
by apply: leq_trans (proj2 (hle mu hd)).
Qed.

(* DRMs that cannot increase their rank (TensorTrainDRM, SparseSignDRM): the guard tests the
   wrong class, so the call ends in an AttributeError instead of the intended error *)
Theorem C26_unsupported st X newl newr nl nr :
  process_tt_rank newl (tshape X) false = Ok nl -> process_tt_rank newr (tshape X) false = Ok nr ->
  ~~ can_increase (d_class (left_drm st)) -> increase_rank st X newl newr = Err AttributeError.
Proof. by move=> pl pr hc; rewrite /stt_increase_rank pl pr /= /drm_increase_rank (negbTE hc). Qed.

(* ---- C33: scaling ---- *)
Theorem C33_scaling_refuted (st : sketched R) (c : R) : stt_mul st c = Err UnboundLocalError.
Proof. by []. Qed.
End Theorems.
Print Assumptions C24_blocked_equal.
Print Assumptions C26_increase_rank.
Print Assumptions C26_unsupported.
Print Assumptions C33_scaling_refuted.
