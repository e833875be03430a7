(* Properties C27 (shapes), C32, C46 and the refuted parts of C23 and C25, with the concrete
   cases that meet the hypotheses of the theorems of Prop_Sketch.v and Prop_Sketch2.v. *)
From Coq Require Import String Ascii NArith.
From mathcomp Require Import all_ssreflect all_algebra.
From mathcomp Require Import zify.
From Verif Require Import Py Nd NdThy Ein Utils Tensor Hash Sketch Spec TensorThy TensorThy2 TensorThy4 TrimThy RoundThy SkSpec SkThy2 SkThy7 SkThy8 SkThy9 SkThy10 SkThy11 SkThy12 SkThy13 SkThy14 SkThy15 Ex SkEx Prop_Sketch Prop_Sketch2.
Set Implicit Arguments. Unset Strict Implicit. Unset Printing Implicit Defensive.
Import GRing.Theory.
Local Open Scope ring_scope.

Section Theorems.
Variable R : comRingType.
Variable to_normal : N -> R.
Variable tt_random : seq nat -> seq nat -> N -> seq (nd R).
Variable stream : N -> nat -> R.
Variable offset : N -> nat -> N.
Variable right_seed_of : N -> nat -> N.
Variable lstsq : nd R -> nd R -> res (nd R).
Variable qr_econ : nd R -> res (nd R * nd R).
Notation gs := (general_sketch to_normal lstsq qr_econ).
Notation stream_sketch := (stream_sketch to_normal tt_random stream offset right_seed_of lstsq qr_econ).
Notation orthogonal_sketch := (orthogonal_sketch to_normal tt_random stream offset right_seed_of lstsq qr_econ).
Notation stt_add := (stt_add to_normal tt_random stream offset right_seed_of lstsq qr_econ).
Notation new := (drm_new tt_random stream offset).
Notation made := (made tt_random stream offset).
Notation is_sk := (is_sk to_normal).
Notation C0 := (C0 R).
Implicit Types (X Y : tensor R) (D E : drm R) (a : nd R).

(* ---- C27: the shapes of Psi and Omega; C46: accepted rank pairs, and the result can always
   be updated.  Any DRM classes lt, rt that support X; lk', rk' are the requested ranks, the
   smaller of the two trimmed. ---- *)
Theorem C27_shapes o X l r lk rk sd lt rt ent (lbig : bool) : let sh := tshape X in let d := size sh in
  tt_random_ok tt_random -> wf_rep X -> order_ok o X -> (1 < d)%N -> all (fun n => 0 < n)%N sh ->
  process_tt_rank l sh false = Ok lk -> process_tt_rank r sh false = Ok rk ->
  all (fun n => 0 < n)%N lk -> all (fun n => 0 < n)%N rk ->
  (forall mu, (mu < d.-1)%N -> if lbig then (nth 0 rk mu < nth 0 lk mu)%N else (nth 0 lk mu < nth 0 rk mu)%N) ->
  let lk' := trim_if (~~ lbig) sh lk in let rk' := trim_if lbig sh rk in
  let s := if sd is Some s then s else ent 0%N in
  new_args (lclass lt rt) lk' (Some s) -> new_args (rclass lt rt) rk' (Some (right_seed_of s d)) ->
  (forall D, new (lclass lt rt) ent (RTuple lk') sh false (Some s) = Ok D -> fits D d.-1 X) ->
  (forall E, new (rclass lt rt) ent (RTuple rk') sh true (Some (right_seed_of s d)) = Ok E -> fits E d.-1 X) ->
  exists2 st, stream_sketch X l r sd lt rt None None ent = Ok st &
    [/\ stt_shape st = sh, stt_left_rank st = lk' /\ stt_right_rank st = rk',
        [seq nshape P | P <- Psi_cores (sketch_ st)] =
          [seq [:: nth 0 (1 :: lk') mu; nth 0 sh mu; nth 0 (rcons rk' 1) mu]%N | mu <- iota 0 d] &
        [seq nshape W | W <- Omega_mats (sketch_ st)] =
          [seq [:: nth 0 lk' mu; nth 0 rk' mu]%N | mu <- iota 0 d.-1]].
Proof.
move=> sh d hr w oX d1 hsh pl pr pol por hb lk' rk' s al ar fD fE.
have [st es [mD mE _ _ hsk]] := @stream_newE R to_normal tt_random stream offset right_seed_of lstsq qr_econ hr
  o X l r lk rk sd lt rt ent w oX d1 hsh pl pr pol por lbig hb al ar fD fE.
have [[gD sD tD rD] slk] := made_good hr mD; have [[gE sE tE rE] srk] := made_good hr mE.
have mk : sketch_ st = mk_container (Psi_cores (sketch_ st)) (Omega_mats (sketch_ st)).
  move: es; rewrite /Sketch.stream_sketch; case: (rank_gt _ _) => //= ?; case: (rank_gt _ _) => //= ?; case: ifP => // _.
  case: (make_drms _ _ _ _ _ _ _ _ _ _ _ _ _ _ _) => //= lr.
  by case eg : (general_sketch _ _ _ _ _ _ _) => [c|] //= -[<-] /=; apply: gs_mk eg.
have d0 : (0 < d)%N by clear -d1; lia.
have [k1 k2 k3] := mk_ranks hsk mk d0.
have cr mu : (mu < d.-1)%N -> drm_cols (right_drm st) (d - mu.+2) = nth 0%N rk' mu by move=> hm; rewrite /drm_cols rE flip_at.
exists st => //; split.
- exact: k1.
- by rewrite /stt_left_rank /stt_right_rank rD rE /SkThy9.flip revK.
- case: hsk => s1 _ hP _; apply: (@eq_from_nth _ [::]); rewrite ?size_map ?size_iota ?s1 // => mu hm.
  rewrite (nth_map C0) ?s1 // (nth_map 0%N) ?size_iota // nth_iota // add0n.
  have [_ -> _] := hP mu hm; congr [:: _; _; _].
    by case: (mu) => //= m; rewrite /drm_cols rD.
  rewrite /at_right nth_rcons srk -/d; case: ltnP => hd; first by rewrite cr.
  have {}hm : (mu < d)%N := hm.
  by rewrite (_ : mu == d.-1) //; clear -hd hm; lia.
- case: hsk => _ s2 _ hO; apply: (@eq_from_nth _ [::]); rewrite ?size_map ?size_iota ?s2 // => mu hm.
  rewrite (nth_map C0) ?s2 // (nth_map 0%N) ?size_iota // nth_iota // add0n.
  by have [_ -> _] := hO mu hm; rewrite cr // /drm_cols rD.
Qed.

(* ---- C46: exactly the strictly ordered pairs pass the check of stream_sketch ---- *)
Theorem C46_stream_rejects X l r lk rk sd lt rt (gl gr : option (drm R)) ent : let sh := tshape X in let d := size sh in
  (1 < d)%N -> process_tt_rank l sh false = Ok lk -> process_tt_rank r sh false = Ok rk ->
  (exists2 mu, (mu < d.-1)%N & (nth 0 lk mu <= nth 0 rk mu)%N) ->
  (exists2 mu, (mu < d.-1)%N & (nth 0 rk mu <= nth 0 lk mu)%N) ->
  stream_sketch X l r sd lt rt gl gr ent = Err ValueError.
Proof.
move=> sh d d1 pl pr [m1 h1 h1'] [m2 h2 h2']; apply: (stream_reject _ _ _ _ _ _ _ sd lt rt gl gr ent d1 pl pr).
  by move=> /(_ m1 h1); rewrite ltnNge h1'.
by move=> /(_ m2 h2); rewrite ltnNge h2'.
Qed.

Theorem C46_stream_accepts_and_updates o X Y l r lk rk sd lt rt ent (lbig : bool) : let sh := tshape X in let d := size sh in
  tt_random_ok tt_random -> wf_rep X -> order_ok o X -> wf_rep Y -> order_ok o Y -> tshape Y = sh ->
  (1 < d)%N -> all (fun n => 0 < n)%N sh ->
  process_tt_rank l sh false = Ok lk -> process_tt_rank r sh false = Ok rk ->
  all (fun n => 0 < n)%N lk -> all (fun n => 0 < n)%N rk ->
  (forall mu, (mu < d.-1)%N -> if lbig then (nth 0 rk mu < nth 0 lk mu)%N else (nth 0 lk mu < nth 0 rk mu)%N) ->
  let lk' := trim_if (~~ lbig) sh lk in let rk' := trim_if lbig sh rk in
  let s := if sd is Some s then s else ent 0%N in
  new_args (lclass lt rt) lk' (Some s) -> new_args (rclass lt rt) rk' (Some (right_seed_of s d)) ->
  (forall D, new (lclass lt rt) ent (RTuple lk') sh false (Some s) = Ok D -> fits D d.-1 X /\ fits D d.-1 Y) ->
  (forall E, new (rclass lt rt) ent (RTuple rk') sh true (Some (right_seed_of s d)) = Ok E -> fits E d.-1 X /\ fits E d.-1 Y) ->
  exists2 st, stream_sketch X l r sd lt rt None None ent = Ok st &
  exists2 st2, stt_add st Y = Ok st2 &
    stt_left_rank st2 = stt_left_rank st /\ stt_right_rank st2 = stt_right_rank st.
Proof.
move=> sh d hr w oX wY oY eY d1 hsh pl pr pol por hb lk' rk' s al ar fD fE.
have d0 : (0 < d)%N by clear -d1; lia.
have [st es [mD mE _ hst hsk]] := @stream_newE R to_normal tt_random stream offset right_seed_of lstsq qr_econ hr
  o X l r lk rk sd lt rt ent w oX d1 hsh pl pr pol por lbig hb al ar (fun D h => (fD D h).1) (fun E h => (fE E h).1).
exists st => //.
have [[gD sD tD rD] slk] := made_good hr mD; have [[gE sE tE rE] srk] := made_good hr mE.
have [nD nE] : new (lclass lt rt) ent (RTuple lk') sh false (Some s) = Ok (left_drm st) /\
               new (rclass lt rt) ent (RTuple rk') sh true (Some (right_seed_of s d)) = Ok (right_drm st).
  have [bl [ebl rl]] := rank_gtE d1 pl pr; have [br [ebr rr]] := rank_gtE d1 pr pl.
  have d2 : (0 < d.-1)%N by clear -d1; lia.
  have [hbl hbr] : bl = lbig /\ br = ~~ lbig.
    case: (lbig) hb => hb; split; try exact/rl; try exact/rr.
      by apply: (gt_sym d2 hb rr).
    by apply: (gt_sym d2 hb rl).
  have [D [E [em [eD _ _ _] [eE _ _ _] _]]] := make_newE stream offset hr d1 hsh pl pr pol por al ar.
  move: es; rewrite /Sketch.stream_sketch ebl ebr hbl hbr /= (_ : ~~ lbig && ~~ ~~ lbig = false); last by case: (lbig).
  by rewrite em /=; case: (general_sketch _ _ _ _ _ _ _) => //= c [<-].
have [|||||||st2 e2 [h1 h2 _]] := @stt_addE R to_normal tt_random stream offset right_seed_of lstsq qr_econ o st Y (den X) wY; rewrite ?eY //.
- exact: (fD _ nD).2.
- exact: (fE _ nE).2.
by exists st2 => //; rewrite /stt_left_rank /stt_right_rank h1 h2.
Qed.

(* orthogonal_sketch wants right > left at every bond (the accepted calls: C29, C31) *)
Theorem C46_orthogonal_rejects X l r lk rk sd lt rt (gl gr : option (drm R)) ent : let sh := tshape X in let d := size sh in
  (1 < d)%N -> process_tt_rank l sh false = Ok lk -> process_tt_rank r sh false = Ok rk ->
  (exists2 mu, (mu < d.-1)%N & (nth 0 rk mu <= nth 0 lk mu)%N) ->
  orthogonal_sketch X l r sd lt rt gl gr ent = Err ValueError.
Proof.
move=> sh d d1 pl pr [m1 h1 h1'].
have [br [ebr rr]] := rank_gtE d1 pr pl.
by rewrite /Sketch.orthogonal_sketch ebr /=; case: rr => // /(_ m1 h1); rewrite ltnNge h1'.
Qed.

(* a given DRM whose rank is not the requested one is rejected *)
Theorem C46_wrong_given_rank X l r sd lt rt D (gr : option (drm R)) ent bl br : l <> RTuple (d_rank D) ->
  rank_gt l r = Ok bl -> rank_gt r l = Ok br ->
  stream_sketch X l r sd lt rt (Some D) gr ent = Err ValueError.
Proof.
move=> hl; rewrite /Sketch.stream_sketch; move=> -> /= -> /=.
case: ifP => // _; rewrite /make_drms (_ : rank_is _ l = false) //.
by case: (l) hl => //= t; apply: contra_notF => /eqP ->.
Qed.

(* without a left DRM the methods streaming and orthogonal are rejected (hmt is not: C30) *)
Theorem C46_left_required X E m : m <> Hmt -> gs X None E m = Err ValueError.
Proof. by case: m. Qed.

(* ---- C32: transposing a streaming sketch ---- *)
Theorem C32_transpose o st D E (s : seq nat) x : let d := size s in
  (1 < d)%N -> size (d_rank D) = d.-1 -> size (d_rank E) = d.-1 -> left_drm st = D -> right_drm st = E ->
  is_sk o D E s x (sketch_ st) ->
  exists2 st2, stt_T st = Ok st2 &
  [/\ stt_shape st2 = rev s,
      c_left_rank (sketch_ st2) = d_rank E /\ c_right_rank (sketch_ st2) = rev (d_rank D),
      size (Psi_cores (sketch_ st2)) = d /\ size (Omega_mats (sketch_ st2)) = d.-1,
      forall mu, (mu < d)%N ->
        let P := nth C0 (Psi_cores (sketch_ st)) (d - mu.+1) in let Q := nth C0 (Psi_cores (sketch_ st2)) mu in
        nshape Q = rev (nshape P) /\ forall (a k b : nat), inb (nshape Q) [:: a; k; b] -> get Q [:: a; k; b] = get P [:: b; k; a] &
      forall mu, (mu < d.-1)%N ->
        let W := nth C0 (Omega_mats (sketch_ st)) (d - mu.+2) in let V := nth C0 (Omega_mats (sketch_ st2)) mu in
        nshape V = rev (nshape W) /\ forall (a b : nat), inb (nshape V) [:: a; b] -> get V [:: a; b] = get W [:: b; a]].
Proof.
move=> d d1 sD sE eD eE hs.
have d0 : (0 < d)%N by clear -d1; lia.
have [c2 e2 h2] := container_TE d0 hs.
rewrite /stt_T e2 /=; eexists; first by [].
have mk : c2 = mk_container (Psi_cores c2) (Omega_mats c2).
  by move: e2; rewrite /container_T; case: (mapM _ _) => //= Ps [<-].
have d0' : (0 < size (rev s))%N by rewrite size_rev.
have [k1 k2 k3] := mk_ranks h2 mk d0'; rewrite size_rev -/d in k2 k3.
split=> /=.
- exact: k1.
- rewrite k2 k3; split; apply: (@eq_from_nth _ 0%N); rewrite size_map size_iota ?size_rev ?sD ?sE // => mu hm.
    rewrite (nth_map 0%N) ?size_iota // nth_iota // add0n /drm_cols -/d; congr nth; clear -hm; lia.
  rewrite (nth_map 0%N) ?size_iota // nth_iota // add0n /drm_cols nth_rev ?sD // -/d; congr nth; clear -hm; lia.
- by case: h2; rewrite size_rev.
- move=> mu hm; have hm' : (d - mu.+1 < d)%N by clear -hm; lia.
  case: hs => s1 _ hP _; have [w1 w2 _] := hP _ hm'; rewrite -/d in w2 s1.
  move: e2; rewrite /container_T; have [||Ps -> [sP hPs]] := @mapM_seqE (nd R) C0 (fun P => transpose P [:: 2; 1; 0]%N) (rev (Psi_cores (sketch_ st))) d (fun mu P =>
    let: Q := nth C0 (Psi_cores (sketch_ st)) (d - mu.+1) in
    P = tab3 (dim Q 2) (dim Q 1) (dim Q 0) (fun (a k b : nat) => get Q [:: b; k; a])).
  + by rewrite size_rev s1.
  + move=> m hm1; rewrite nth_rev s1 //; have [|_ w3 _] := hP (d - m.+1)%N; first by clear -hm1; rewrite -/d; lia.
    by rewrite (transpose3 w3) /dim w3; eexists.
  case=> <- /=; rewrite hPs // /dim w2 /=; split=> // a k b /and4P[ha hk hb _].
  by rewrite get_tab3.
- move=> mu hm; have hm' : (d - mu.+2 < d.-1)%N by clear -hm; lia.
  case: hs => _ s2 _ hO; have [w1 w2 _] := hO _ hm'; rewrite -/d in w2 s2.
  move: e2; rewrite /container_T; case: (mapM _ _) => //= Ps [<-] /=.
  rewrite (nth_map C0) ?size_rev ?s2 // nth_rev ?s2 //.
  have -> : (d.-1 - mu.+1 = d - mu.+2)%N by clear -hm; lia.
  by rewrite (trE w2) w2 /=; split=> // a b /and3P[ha hb _]; rewrite get_tab2.
Qed.

(* ... but the ranks the transposed sketch reports are not those of its arrays, but the
   reverse (left_rank and right_rank come from the transposed DRMs, whose ranks are reversed
   twice), and its DRMs keep the old shape: adding a tensor of the transposed shape fails *)
Theorem C32_reported_ranks_refuted (st st2 : sketched R) : stt_T st = Ok st2 ->
  stt_left_rank st2 = stt_right_rank st /\ stt_right_rank st2 = stt_left_rank st.
Proof.
by rewrite /stt_T; case: (container_T _) => //= c [<-]; rewrite /stt_left_rank /stt_right_rank /= !revK.
Qed.
Theorem C32_update_refuted (st st2 : sketched R) (Y : tensor R) : stt_T st = Ok st2 ->
  (forall s Ys, Y <> TSum s Ys) -> tshape Y <> d_shape (right_drm st) -> forall z, stt_add st2 Y <> Ok z.
Proof.
rewrite /stt_T; case: (container_T _) => //= c [<-] nY /eqP hsh z.
rewrite /Sketch.stt_add /Sketch.stream_sketch.
case: (rank_gt _ _) => //= bl; case: (all_gt _ _) => //= br; case: ifP => // _.
rewrite /make_drms /= eqxx /= eqxx /= /general_sketch.
suff : forall z, sketch_all to_normal (drm_T (right_drm st)) Y <> Ok z by case: (sketch_all _ _ _) => // l /(_ l).
move=> {}z.
rewrite /sketch_all; case: (Y) nY hsh => [a|s i v|cs|cs|fs k|s Ys] nY hsh /=; try by rewrite /wrapped_sketch /= eq_sym hsh; case: has_method.
by case: (nY s Ys).
Qed.
End Theorems.
Print Assumptions C27_shapes.
Print Assumptions C46_stream_rejects.
Print Assumptions C46_stream_accepts_and_updates.
Print Assumptions C46_orthogonal_rejects.
Print Assumptions C46_wrong_given_rank.
Print Assumptions C46_left_required.
Print Assumptions C32_transpose.
Print Assumptions C32_reported_ranks_refuted.
Print Assumptions C32_update_refuted.
