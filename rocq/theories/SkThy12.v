(* The streaming entry points: general_sketch, stream_sketch, stt + Y, blocked sketches,
   increase_rank *)
From Coq Require Import String Ascii NArith.
From mathcomp Require Import all_ssreflect all_algebra.
From mathcomp Require Import zify.
From Verif Require Import Py Nd NdThy Ein Utils Tensor Hash Sketch Spec ChainThy TensorThy TensorThy2 TrimThy RoundThy SkSpec SkThy1 SkThy4 SkThy5 SkThy7 SkThy8 SkThy9 SkThy10 SkThy11.
Set Implicit Arguments. Unset Strict Implicit. Unset Printing Implicit Defensive.
Import GRing.Theory.
Local Open Scope ring_scope.

Section Api.
Variable R : comRingType.
Variable to_normal : N -> R.
Variable tt_random : seq nat -> seq nat -> N -> seq (nd R).
Variable stream : N -> nat -> R.
Variable offset : N -> nat -> N.
Variable right_seed_of : N -> nat -> N.
Variable lstsq : nd R -> nd R -> res (nd R).
Variable qr_econ : nd R -> res (nd R * nd R).
Notation arr := (nd R).
Notation tensor := (tensor R).
Notation drm := (drm R).
Notation C0 := (C0 R).
Implicit Types (X Y : tensor) (n mu : nat) (D E : drm).
Notation gs := (general_sketch to_normal lstsq qr_econ).

Lemma wf_gen_rep nr X : wf_gen nr X -> wf_gen false X.
Proof.
elim/tensor_ind': X => [a|s i v|cs|cs|fs c|s Xs IH] //; first by case/andP=> h _; rewrite /= h.
rewrite !wf_sumE => /andP[-> h] /=; elim: Xs IH h => //= x Xs IHl IH /andP[/andP[h1 h2] h3].
by rewrite IH ?h2 //=; [apply: IHl => // y hy; apply: IH; right | left].
Qed.


Lemma right_cols E d mu : size (d_rank E) = d.-1 -> (mu < d.-1)%N ->
  drm_cols E (d - mu.+2) = nth 0%N (rev (d_rank E)) mu.
Proof.
move=> s hm; rewrite nth_rev s // /drm_cols; congr nth; clear -hm; lia.
Qed.

Lemma gsE D E X : wf_gen false X -> (1 < size (tshape X))%N -> pair_ok D E (tshape X) ->
  let n := (size (tshape X)).-1 in fits D n X -> fits E n X -> right_ok X ->
  exists2 s, gs X (Some D) E Streaming = Ok s & is_sketch to_normal D E (tshape X) (den X) s.
Proof.
move=> w d1 [sD sE [tD tE] [vD rD] [vE rE]] n fD fE rX; rewrite sD in vD rD; rewrite sE in vE rE.
have [|lc elc [slc hL]] := sketch_leftE to_normal w _ sD tD vD fD; first by clear -d1; lia.
have [|rc erc [src hR]] := sketch_rightE w _ sE tE vE fE (right_ok_agree to_normal E rX w erefl); first by clear -d1; lia.
apply: (@general_streamE R to_normal lstsq qr_econ false X _ _ _ _ D E lc rc) => //.

- by move=> mu hm; rewrite right_cols.
Qed.

Lemma gs_denseE D E X : wf_gen false X -> (1 < size (tshape X))%N -> pair_ok D E (tshape X) ->
  let n := (size (tshape X)).-1 in fits D n X -> fits E n X -> all_dense X ->
  exists2 s, gs X (Some D) E Streaming = Ok s &
    is_sketch_with (left_fun to_normal D) (right_fun_dense to_normal E (tshape X)) (drm_cols D)
      (fun mu => drm_cols E (size (tshape X) - mu.+2)) (tshape X) (den X) s.
Proof.
move=> w d1 [sD sE [tD tE] [vD rD] [vE rE]] n fD fE rX; rewrite sD in vD rD; rewrite sE in vE rE.
have [|lc elc [slc hL]] := sketch_leftE to_normal w _ sD tD vD fD; first by clear -d1; lia.
have [|rc erc [src hR]] := sketch_rightE w _ sE tE vE fE (all_dense_agree to_normal E rX w erefl); first by clear -d1; lia.
apply: (@general_streamE R to_normal lstsq qr_econ false X _ _ _ _ D E lc rc) => //.

- by move=> mu hm; rewrite right_cols.
Qed.

(* the container fields *)
Lemma gs_mk X l E m s : gs X l E m = Ok s -> s = mk_container (Psi_cores s) (Omega_mats s).
Proof.
rewrite /general_sketch; case: (match m with Hmt => _ | _ => _ end) => //= lc.
case: (sketch_all _ _ _) => //= rc; case: (match m with Hmt => _ | _ => _ end) => //= Os.
by case: (foldM _ _ _) => //= Ps [<-].
Qed.

Lemma mk_ranks f g lr rr shape x (s : container R) : is_sketch_with f g lr rr shape x s -> s = mk_container (Psi_cores s) (Omega_mats s) ->
  (0 < size shape)%N ->
  [/\ c_shape s = shape, c_left_rank s = [seq lr mu | mu <- iota 0 (size shape).-1] &
      c_right_rank s = [seq rr mu | mu <- iota 0 (size shape).-1]].
Proof.
move=> [s1 s2 s3 s4] -> s0 /=; split.
- apply: (@eq_from_nth _ 0%N); rewrite size_map s1 // => mu hm.
  by rewrite (nth_map C0) ?s1 //; have [_ e _] := s3 mu hm; rewrite /dim e.
- apply: (@eq_from_nth _ 0%N); rewrite !size_map size_behead s1 ?size_iota // => mu hm.
  rewrite (nth_map C0) ?size_behead ?s1 // nth_behead (nth_map 0%N) ?size_iota // nth_iota // add0n.
  have [|_ e _] := s3 mu.+1; first by clear -hm; lia.
  by rewrite /dim e.
- have ht : ((size shape).-1 < size shape)%N by clear -s0; lia.
  have st : size (take (size (Psi_cores s)).-1 (Psi_cores s)) = (size shape).-1 by rewrite size_take s1 ht.
  apply: (@eq_from_nth _ 0%N); rewrite !size_map ?st ?size_iota // => mu hm.
  rewrite (nth_map C0) ?st // nth_take ?s1 // (nth_map 0%N) ?size_iota // nth_iota // add0n.
  have [|_ e _] := s3 mu; first by clear -hm; lia.
  by rewrite /dim e /at_right hm.
Qed.
Lemma iota_nth (l : seq nat) n : size l = n -> [seq nth 0%N l mu | mu <- iota 0 n] = l.
Proof. by move=> <-; rewrite -/(mkseq _ _) mkseq_nth. Qed.

Notation gfam := (gfam to_normal).
Notation is_sk := (is_sk to_normal).

Lemma gs_isk o D E X : wf_gen false X -> (1 < size (tshape X))%N -> pair_ok D E (tshape X) ->
  let n := (size (tshape X)).-1 in fits D n X -> fits E n X -> order_ok o X ->
  exists2 s, gs X (Some D) E Streaming = Ok s & is_sk o D E (tshape X) (den X) s.
Proof. by case: o; [apply: gsE | apply: gs_denseE]. Qed.

(* ---- stream_sketch with given DRMs ---- *)
Lemma all_gtE (a b : seq nat) : size a = size b ->
  all_gt a b = Ok (all (fun p => p.2 < p.1)%N (zip a b)).
Proof. by move=> e; rewrite /all_gt /bcast_tuples e eqxx. Qed.
Lemma all_zipP (a b : seq nat) n : size a = n -> size b = n ->
  reflect (forall mu, (mu < n)%N -> (nth 0 b mu < nth 0 a mu)%N) (all (fun p => p.2 < p.1)%N (zip a b)).
Proof.
move=> sa sb; apply: (iffP (all_nthP (0%N, 0%N))) => H mu hm.
  by have := H mu; rewrite size_zip sa sb minnn nth_zip ?sa ?sb //; apply.
by rewrite nth_zip ?sa ?sb //; apply: H; move: hm; rewrite size_zip sa sb minnn.
Qed.

Notation stream_sketch := (stream_sketch to_normal tt_random stream offset right_seed_of lstsq qr_econ).

Lemma stream_givenE o D E X seed lt rt ent : wf_gen false X -> (1 < size (tshape X))%N -> pair_ok D E (tshape X) ->
  let n := (size (tshape X)).-1 in fits D n X -> fits E n X -> order_ok o X ->
  strict_ranks D E (size (tshape X)) ->
  exists2 st, stream_sketch X (RTuple (d_rank D)) (RTuple (rev (d_rank E))) seed lt rt (Some D) (Some E) ent = Ok st &
    [/\ left_drm st = D, right_drm st = E, is_sk o D E (tshape X) (den X) (sketch_ st) &
        gs X (Some D) E Streaming = Ok (sketch_ st)].
Proof.
move=> w d1 hp n fD fE rX hs.
have [s es hsk] := gs_isk w d1 hp fD fE rX.
case: hp => [sD sE _ [_ rD] [_ rE]]; rewrite sD in rD; rewrite sE in rE.
have sr : size (rev (d_rank E)) = (size (tshape X)).-1 by rewrite size_rev.
rewrite /stream_sketch /= !all_gtE ?rD ?sr //=.
have -> : ~~ all (fun p => p.2 < p.1)%N (zip (d_rank D) (rev (d_rank E))) && ~~ all (fun p => p.2 < p.1)%N (zip (rev (d_rank E)) (d_rank D)) = false.
  apply/negbTE; rewrite -negb_or negbK; case: hs => hs; apply/orP; [right|left]; apply/(all_zipP (n := n)) => // mu hm.
    by rewrite -(right_cols rE hm); apply: hs.
  by rewrite -(right_cols rE hm); apply: hs.
by rewrite /make_drms /= /rank_is !eqxx /= es; eexists.
Qed.

(* ---- stt + Y ---- *)
Lemma stt_addE o st Y x : let s := tshape Y in
  wf_gen false Y -> (1 < size s)%N -> pair_ok (left_drm st) (right_drm st) s ->
  fits (left_drm st) (size s).-1 Y -> fits (right_drm st) (size s).-1 Y -> order_ok o Y ->
  strict_ranks (left_drm st) (right_drm st) (size s) ->
  is_sk o (left_drm st) (right_drm st) s x (sketch_ st) ->
  exists2 st2, stt_add to_normal tt_random stream offset right_seed_of lstsq qr_econ st Y = Ok st2 &
    [/\ left_drm st2 = left_drm st, right_drm st2 = right_drm st &
        is_sk o (left_drm st) (right_drm st) s (fun i => x i + den Y i) (sketch_ st2)].
Proof.
move=> s w d1 hp fD fE rY hs hx; rewrite /stt_add.
have [st1 -> [_ _ h1 _]] /= := stream_givenE None None None (fun _ => N0) w d1 hp fD fE rY hs.
have [c -> hc] /= := container_addE hx h1.
by eexists; first by [].
Qed.
End Api.
