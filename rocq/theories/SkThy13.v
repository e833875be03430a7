(* Blocked sketches and increase_rank *)
From Coq Require Import String Ascii NArith.
From mathcomp Require Import all_ssreflect all_algebra.
From mathcomp Require Import zify.
From Verif Require Import Py Nd NdThy Ein Utils Tensor Hash Sketch Spec ChainThy TensorThy TensorThy2 TrimThy RoundThy SkSpec SkThy1 SkThy4 SkThy5 SkThy7 SkThy8 SkThy9 SkThy10 SkThy11 SkThy12.
Set Implicit Arguments. Unset Strict Implicit. Unset Printing Implicit Defensive.
Import GRing.Theory.
Local Open Scope ring_scope.

Section Blocked.
Variable R : comRingType.
Variable to_normal : N -> R.
Variable tt_random : seq nat -> seq nat -> N -> seq (nd R).
Variable stream : N -> nat -> R.
Variable offset : N -> nat -> N.
Variable lstsq : nd R -> nd R -> res (nd R).
Variable qr_econ : nd R -> res (nd R * nd R).
Notation arr := (nd R).
Notation tensor := (tensor R).
Notation drm := (drm R).
Notation container := (container R).
Notation C0 := (C0 R).
Implicit Types (X Y : tensor) (n mu : nat) (D E : drm).
Notation gs := (general_sketch to_normal lstsq qr_econ).
Notation gfam := (gfam to_normal).
Notation is_sk := (is_sk to_normal).
Notation slice := (drm_slice tt_random stream offset).
Notation new := (drm_new tt_random stream offset).
Notation increase := (drm_increase_rank tt_random stream offset).
Notation made := (made tt_random stream offset).
Hypothesis hrand : tt_random_ok tt_random.

Lemma fits_transfer D D' n X : d_class D' = d_class D -> d_shape D' = d_shape D -> d_transpose D' = d_transpose D ->
  d_true_rank D' = d_true_rank D -> d_seed D' = d_seed D -> (d_class D = SparseSignDRM -> d_nnz D' = d_nnz D) ->
  sliceable D X -> fits D n X -> fits D' n X.
Proof.
move=> ec es et er esd en; have ed : drm_dims D' = drm_dims D by rewrite /drm_dims et es.
elim/tensor_ind': X => [a|s i v|cs|cs|fs c|s Xs IH] /=; try (by rewrite /fits1 ec; case: (d_class D)).
  rewrite /fits1 ec; case ecD : (d_class D) => //= _ h k hk; rewrite et.
  by have := h k hk; rewrite /good_coord ed en ?ecD // esd er.
elim: Xs IH => [|x Xs IHl] IH //= /andP[h1 h2] [f1 f2]; split; first by apply: IH => //; left.
by apply: IHl => // y hy; apply: IH; right.
Qed.

Lemma made_good t shape rk D : made t shape rk D ->
  [/\ drm_good D, d_shape D = shape, d_transpose D = t & d_rank D = flip t rk] /\ size rk = (size shape).-1.
Proof.
move=> [c [ent [rank [seed [hp ha hn]]]]].
have [D' [e [h1 h2 h3 h4] [h5 h6 _ _ _] h7]] := drm_newE stream offset hrand ent t hp ha.
rewrite hn in e; case: e => <- in h2 h3 h6 h7 *; split=> //.
by have [_ ->] := process_size hp erefl.
Qed.

Lemma made_slice t shape rk D a b : made t shape rk D -> win_args (size shape).-1 a b rk ->
  exists2 D', slice D a b = Ok D' & [/\ [/\ drm_good D', d_shape D' = shape & d_transpose D' = t],
    (forall n X, sliceable D X -> fits D n X -> fits D' n X),
    (forall mu, (mu < (size shape).-1)%N -> drm_cols D' mu = (nth 0 (flip t b) mu - nth 0 (flip t a) mu)%N) &
    (forall mu i x, (mu < (size shape).-1)%N -> inb (take mu.+1 (drm_dims D')) i -> (x < drm_cols D' mu)%N ->
      drm_entry to_normal D' mu i x = drm_entry to_normal D mu i (nth 0 (flip t a) mu + x)%N)].
Proof.
move=> hm; move: (made_good hm) => [[_ es et _] _]; move: hm => [c [ent [rank [seed [hp ha hn]]]]] hw.
have [D' e [h1 [h2 h3 h4] [h5 h6 h7 h8] h9 h10]] := sliceE hrand to_normal hp ha hn hw.
exists D' => //; split=> // n X hs; apply: fits_transfer => //; [by rewrite h2 h5|by rewrite h3|by rewrite h4|].
by rewrite h5.
Qed.

Lemma right_dims E (s : seq nat) mu : d_shape E = s -> d_transpose E = true -> (mu < (size s).-1)%N ->
  take (size s - mu.+2).+1 (drm_dims E) = rev (drop mu.+1 s).
Proof.
move=> es et hm; rewrite /drm_dims et es take_rev; congr (rev (drop _ _)); clear -hm; lia.
Qed.
Lemma flip_at (l : seq nat) d mu : size l = d.-1 -> (mu < d.-1)%N -> nth 0%N (flip true l) (d - mu.+2) = nth 0%N l mu.
Proof. move=> s hm; rewrite /flip nth_rev s; last by clear -hm; lia. congr nth; clear -hm; lia. Qed.

(* the right matrices of a slice *)
Lemma gfam_slice o E E' (s : seq nat) (a : seq nat) : d_shape E' = s -> d_transpose E' = true -> size a = (size s).-1 ->
  (forall mu i x, (mu < (size s).-1)%N -> inb (take mu.+1 (drm_dims E')) i -> (x < drm_cols E' mu)%N ->
      drm_entry to_normal E' mu i x = drm_entry to_normal E mu i (nth 0 (flip true a) mu + x)%N) ->
  forall mu j x, (mu < (size s).-1)%N -> inb (drop mu.+1 s) j -> (x < drm_cols E' (size s - mu.+2))%N ->
    gfam o E' s mu j x = gfam o E s mu j (nth 0%N a mu + x)%N.
Proof.
move=> es et sa H mu j x hm hj hx.
have hm' : (size s - mu.+2 < (size s).-1)%N by clear -hm; lia.
have ht := right_dims es et hm.
rewrite -(flip_at sa hm) /gfam; case: o; rewrite /right_fun /right_fun_dense H ?ht ?inb_rev //.
by apply: inb_unravel; rewrite prods_rev; apply: ravel_lt.
Qed.

Lemma mapM_nthE (A B : Type) (a0 : A) (b0 : B) (f : A -> res B) l n (Q : nat -> B -> Prop) : size l = n ->
  (forall mu, (mu < n)%N -> exists2 z, f (nth a0 l mu) = Ok z & Q mu z) ->
  exists2 m, mapM f l = Ok m & size m = n /\ forall mu, (mu < n)%N -> Q mu (nth b0 m mu).
Proof.
elim: l n Q => [|x l IH] n Q; first by move=> <- _; exists [::].
case: n => // n [sl] H.
have [z /= ez qz] := H 0%N isT.
have [m em [sm qm]] := IH n (fun mu => Q mu.+1) sl (fun mu hm => H mu.+1 hm).
by exists (z :: m); [rewrite /= ez /= em | split=> /=; [rewrite sm | case]].
Qed.

Lemma slices_win d rk ls i : slices_ok d rk ls -> (i.+1 < size ls)%N -> size rk = d.-1 ->
  win_args d.-1 (nth [::] ls i) (nth [::] ls i.+1) rk.
Proof.
move=> [h1 h2 h3 h4 h5] hi sr; have hs k : (k < size ls)%N -> size (nth [::] ls k) = d.-1.
  by move=> hk; apply/eqP; apply: (all_nthP [::] h2).
split=> //; try by apply: hs => //; apply: ltnW.
by move=> mu hm; rewrite h5 //= -h4; apply: (@mono_last _ i.+1 mu) => // k hk; apply: h5.
Qed.

Lemma nth_consec (ls : seq (seq nat)) i : (i.+1 < size ls)%N ->
  nth ([::], [::]) (consecutive ls) i = (nth [::] ls i, nth [::] ls i.+1).
Proof.
case: ls => // a l /= hi; rewrite /consecutive nth_zip_cond size_zip /= (minn_idPr (leqnSn _)) ifT //.
Qed.
Lemma size_consec (ls : seq (seq nat)) : size (consecutive ls) = (size ls).-1.
Proof. by case: ls => // a l; rewrite size_zip /= (minn_idPr (leqnSn _)). Qed.

Section Main.
Variables (o : bool) (X : tensor) (D E : drm) (ls rs : seq (seq nat)) (lk rk : seq nat).
Let s := tshape X.
Let d := size s.
Hypothesis w : wf_gen false X.
Hypothesis d1 : (1 < d)%N.
Hypothesis hD : made false s lk D.
Hypothesis hE : made true s rk E.
Hypothesis fD : fits D d.-1 X.
Hypothesis fE : fits E d.-1 X.
Hypothesis sD : sliceable D X.
Hypothesis sE : sliceable E X.
Hypothesis oX : order_ok o X.
Hypothesis hls : slices_ok d lk ls.
Hypothesis hrs : slices_ok d rk rs.

Lemma componentsE (excl : seq (nat * nat)) : exists2 bs,
  blocked_components to_normal tt_random stream offset lstsq qr_econ X D E ls rs excl = Ok bs &
  (forall b, List.In b bs -> blk_ok (left_fun to_normal D) (gfam o E s) s (den X) ls rs b) /\
  (forall i j, (i.+1 < size ls)%N -> (j.+1 < size rs)%N -> (i, j) \notin excl -> exists2 b, List.In b bs & b.1 = (i, j)).
Proof.
have [_ slk] := made_good hD; have [_ srk] := made_good hE.
have szl : (size ls).-1 = size (consecutive ls) by rewrite size_consec.
have szr : (size rs).-1 = size (consecutive rs) by rewrite size_consec.
have hl i : (i < (size ls).-1)%N -> (i.+1 < size ls)%N by clear; lia.
have hr i : (i < (size rs).-1)%N -> (i.+1 < size rs)%N by clear; lia.
pose Q t a b D0 D' := [/\ [/\ drm_good D', d_shape D' = s & d_transpose D' = t],
    (forall n X, sliceable D0 X -> fits D0 n X -> fits D' n X),
    (forall mu, (mu < (size s).-1)%N -> drm_cols D' mu = (nth 0 (flip t b) mu - nth 0 (flip t a) mu)%N) &
    (forall mu i x, (mu < (size s).-1)%N -> inb (take mu.+1 (drm_dims D')) i -> (x < drm_cols D' mu)%N ->
      drm_entry to_normal D' mu i x = drm_entry to_normal D0 mu i (nth 0 (flip t a) mu + x)%N)].
have [i hi|bl ebl [sbl hbl]] := @mapM_nthE _ _ ([::],[::]) D (fun p : seq nat * seq nat => slice D p.1 p.2) (consecutive ls) _
  (fun i D' => Q false (nth [::] ls i) (nth [::] ls i.+1) D D') (esym szl).
  by rewrite nth_consec ?hl //=; apply: (made_slice hD); apply: (slices_win hls (hl i hi) slk).
have [i hi|br ebr [sbr hbr]] := @mapM_nthE _ _ ([::],[::]) E (fun p : seq nat * seq nat => slice E p.1 p.2) (consecutive rs) _
  (fun i D' => Q true (nth [::] rs i) (nth [::] rs i.+1) E D') (esym szr).
  by rewrite nth_consec ?hr //=; apply: (made_slice hE); apply: (slices_win hrs (hr i hi) srk).
rewrite /blocked_components ebl ebr /=.
set pairs := [seq ij <- _ | _].
have hp ij : ij \in pairs -> (ij.1 < (size ls).-1)%N && (ij.2 < (size rs).-1)%N.
  by rewrite mem_filter => /andP[_ /allpairsP[[i j] /= [hi hj ->]]] /=; move: hi hj; rewrite !mem_iota /= sbl sbr => -> ->.
have hblk i j : (i < (size ls).-1)%N -> (j < (size rs).-1)%N -> exists2 S0,
    (do l <- pyget bl i; do r <- pyget br j; do S0 <- gs X (Some l) r Streaming; Ok ((i, j), S0)) = Ok ((i, j), S0) &
    blk_ok (left_fun to_normal D) (gfam o E s) s (den X) ls rs ((i, j), S0).
  move=> hi hj.
  rewrite (pygetE D) ?sbl //= (pygetE E) ?sbr //=.
  have [[g1 g2 g3] g4 g5 g6] := hbl i hi; have [[k1 k2 k3] k4 k5 k6] := hbr j hj.
  have [|||||S0 -> hS] /= := @gs_isk R to_normal lstsq qr_econ o (nth D bl i) (nth E br j) X w; rewrite -/s -/d //.
  - by apply: g4.
  - by apply: k4.
  exists S0 => //; split=> /=; [by apply: hl|by apply: hr|].
  have [ra rb _ _] := slices_win hrs (hr j hj) srk.
  apply: is_sketch_ext hS => //= mu; rewrite -/s -/d.
  - by move=> hm; rewrite k5 ?(flip_at rb hm) ?(flip_at ra hm) //; clear -hm; lia.
  - move=> c x hm hc hx; rewrite /left_fun g6 //.
    by rewrite /drm_dims g3 g2.
  - by move=> c x hm hc hx; rewrite (gfam_slice (E := E) o k2 k3 ra).
suff: forall l, (forall ij, ij \in l -> (ij.1 < (size ls).-1)%N && (ij.2 < (size rs).-1)%N) ->
  exists2 bs, mapM (fun ij : nat * nat => do l <- pyget bl ij.1; do r <- pyget br ij.2;
      do S0 <- gs X (Some l) r Streaming; Ok (ij, S0)) l = Ok bs &
    (forall b, List.In b bs -> blk_ok (left_fun to_normal D) (gfam o E s) s (den X) ls rs b) /\
    (forall ij, ij \in l -> exists2 b, List.In b bs & b.1 = ij).
  move=> /(_ pairs hp) [bs -> [h1 h2]] /=; exists bs => //; split=> // i j hi hj hx; apply: h2.
  rewrite mem_filter hx /=; apply/allpairsP; exists (i, j); rewrite /= !mem_iota sbl sbr.
  split=> //=; clear -hi hj; lia.
elim=> [|[i j] l IH] h; first by exists [::].
have /= /andP[hi hj] := h (i, j) (mem_head _ _).
have [S0 eS hS] := hblk i j hi hj.
have [ij hij|bs eb [hb1 hb2]] := IH; first by apply: h; rewrite inE hij orbT.
exists ((i, j, S0) :: bs); first by rewrite [mapM _ _]/= eS /= eb.
split=> [b [<-|hb]|ij]; [exact: hS|exact: hb1|].
rewrite inE => /orP[/eqP->|hij]; first by exists (i, j, S0) => //; left.
by have [b h1 h2] := hb2 ij hij; exists b => //; right.
Qed.

Lemma made_lcols mu : (mu < d.-1)%N -> nth 0%N lk mu = drm_cols D mu.
Proof. by move=> hm; have [[_ _ _ e] _] := made_good hD; rewrite /drm_cols e. Qed.
Lemma made_rcols mu : (mu < d.-1)%N -> nth 0%N rk mu = drm_cols E (d - mu.+2).
Proof. by move=> hm; have [[_ _ _ e] sr] := made_good hE; rewrite /drm_cols e flip_at. Qed.

Lemma blockedE : exists2 c,
  blocked_stream_sketch to_normal tt_random stream offset lstsq qr_econ X D E ls rs = Ok c & is_sk o D E s (den X) c.
Proof.
have [bs eb [h1 h2]] := componentsE [::].
case: (hls) (hrs) => [l1 l2 l3 l4 l5] [r1 r2 r3 r4 r5].
rewrite /blocked_stream_sketch eb /=.
have [||c -> hc] := @assemble_blockedE R (left_fun to_normal D) (gfam o E s) s (den X) ls rs _ l2 r2 l5 r5 bs l1 r1 l3 r3 h1.
- by clear -d1; rewrite -/d; lia.
- by move=> i j hi hj; apply: h2.
exists c => //; apply: is_sketch_ext hc => // mu hm; first by rewrite l4 made_lcols.
by rewrite r4 made_rcols.
Qed.
End Main.

Lemma fits_class D D' n X : d_class D' = d_class D -> can_increase (d_class D) -> fits D n X -> fits D' n X.
Proof.
move=> ec; rewrite -ec => cD.
elim/tensor_ind': X => [a|s i v|cs|cs|fs c|s Xs IH] /=; try (by rewrite /fits1 -ec; case: (d_class D') cD).
elim: Xs IH => [|x Xs IHl] IH //= [f1 f2]; split; first by apply: IH => //; left.
by apply: IHl => // y hy; apply: IH; right.
Qed.
Lemma sliceable_class D X : can_increase (d_class D) -> sliceable D X.
Proof.
move=> cD; elim/tensor_ind': X => //= [a|fs c|s Xs]; try by case: (d_class D) cD.
by elim: Xs => [|x Xs IHl] IH //=; rewrite IH; [apply: IHl => y hy; apply: IH; right|left].
Qed.

Lemma made_increase t shape rk D nk : made t shape rk D -> can_increase (d_class D) -> size nk = (size shape).-1 ->
  exists2 D', increase D nk = Ok D' & [/\ made t shape nk D', d_class D' = d_class D &
   forall mu i x, (mu < (size shape).-1)%N ->
     inb (take mu.+1 (drm_dims D')) i -> (x < nth 0 (flip t nk) mu)%N -> (x < nth 0 (flip t rk) mu)%N ->
     drm_entry to_normal D' mu i x = drm_entry to_normal D mu i x].
Proof.
move=> [c [ent [rank [seed [hp ha hn]]]]] hc sn.
have [D0 [e0 [ec _ _ _] _ _]] := drm_newE stream offset hrand ent t hp ha; rewrite hn in e0; case: e0 => e0.
rewrite -e0 in ec; rewrite ec in hc.
have [h1 h2 h3 [D' h4 h5]] := increaseE hrand to_normal hp ha hn hc sn.
have [D1 [e1 [ec1 _ _ _] _ _]] := drm_newE stream offset hrand (fun _ => N0) t h2 h3.
exists D' => //; split=> //.
  by exists c, (fun _ => N0), (RTuple nk), (Some (d_seed D)); split=> //; rewrite -h1.
by move: h4; rewrite h1 e1 => -[<-]; rewrite ec1 ec.
Qed.

Lemma stt_increaseE o st X lk rk newl newr nl nr : let s := tshape X in let d := size s in
  let D := left_drm st in let E := right_drm st in
  wf_gen false X -> (1 < d)%N -> made false s lk D -> made true s rk E ->
  can_increase (d_class D) -> can_increase (d_class E) ->
  fits D d.-1 X -> fits E d.-1 X -> order_ok o X ->
  process_tt_rank newl s false = Ok nl -> process_tt_rank newr s false = Ok nr ->
  (forall mu, (mu < d.-1)%N -> (nth 0 lk mu <= nth 0 nl mu)%N /\ (nth 0 rk mu <= nth 0 nr mu)%N) ->
  is_sk o D E s (den X) (sketch_ st) ->
  exists2 st2, stt_increase_rank to_normal tt_random stream offset lstsq qr_econ st X newl newr = Ok st2 &
    [/\ increase D nl = Ok (left_drm st2), increase E nr = Ok (right_drm st2),
        made false s nl (left_drm st2), made true s nr (right_drm st2) &
        is_sk o (left_drm st2) (right_drm st2) s (den X) (sketch_ st2)].
Proof.
move=> s d D E w d1 mD mE cD cE fD fE oX pl pr hle hsk.
have [[_ sD tD rD] slk] := made_good mD; have [[_ sE tE rE] srk] := made_good mE.
have [_ snl] := process_size pl erefl; have [_ snr] := process_size pr erefl.
have [D2 eD2 [mD2 cD2 hD2]] := made_increase mD cD snl.
have [E2 eE2 [mE2 cE2 hE2]] := made_increase mE cE snr.
have [[_ sD2 tD2 rD2] _] := made_good mD2; have [[_ sE2 tE2 rE2] _] := made_good mE2.
rewrite /stt_increase_rank -/s pl pr /= -/D -/E eD2 eE2 /=.
set ls := [:: _; d_rank D; _]; set rs := [:: _; rev (d_rank E); _].
have rlk : d_rank D = lk by []. have rrk : rev (d_rank E) = rk by rewrite rE revK.
have hls : slices_ok d nl ls.
  split=> //=; rewrite ?size_nseq ?rlk ?slk ?snl ?eqxx // => i mu.
  rewrite /ls /rs; case: i => [|[|i]] //= _ hm; rewrite ?nth_nseq ?if_same // ?rlk ?rrk; by case: (hle mu hm).
have hrs : slices_ok d nr rs.
  split=> //=; rewrite ?size_nseq ?rrk ?srk ?snr ?eqxx // => i mu.
  rewrite /ls /rs; case: i => [|[|i]] //= _ hm; rewrite ?nth_nseq ?if_same // ?rlk ?rrk; by case: (hle mu hm).
have fD2 : fits D2 d.-1 X by apply: (fits_class cD2).
have fE2 : fits E2 d.-1 X by apply: (fits_class cE2).
have [||bs eb [h1 h2]] := @componentsE o X D2 E2 ls rs nl nr w d1 mD2 mE2 fD2 fE2 _ _ oX hls hrs [:: (0%N, 0%N)].
- by apply: sliceable_class; rewrite cD2.
- by apply: sliceable_class; rewrite cE2.
rewrite eb /=.
case: (hls) (hrs) => [l1 l2 l3 l4 l5] [r1 r2 r3 r4 r5].
have b0 : blk_ok (left_fun to_normal D2) (gfam o E2 s) s (den X) ls rs (0%N, 0%N, sketch_ st).
  split=> //=; apply: is_sketch_ext hsk => // mu.
  - by move=> hm; rewrite nth_nseq if_same subn0 /drm_cols.
  - by move=> hm; rewrite nth_nseq if_same subn0 -(made_rcols mE hm) rrk.
  - move=> i c hm hi hc; rewrite nth_nseq if_same add0n /left_fun hD2 //; first by rewrite /drm_dims tD2 sD2.
      by apply: leq_trans (proj1 (hle mu hm)); rewrite -rlk.
    by rewrite /= -rlk.
  - move=> j c hm hj hc; rewrite nth_nseq if_same add0n.
    have hm' : (size s - mu.+2 < (size s).-1)%N by clear -hm; lia.
    have ht := right_dims sE2 tE2 hm.
    have hc1 : (c < nth 0 rk mu)%N by rewrite (made_rcols mE hm).
    have hc2 : (c < nth 0 nr mu)%N by apply: leq_trans (proj2 (hle mu hm)).
    rewrite /gfam; case: (o); rewrite /right_fun /right_fun_dense hE2 ?ht ?inb_rev ?flip_at //.
    by apply: inb_unravel; rewrite prods_rev; apply: ravel_lt.
have [|||c ec hc] := @assemble_blockedE R (left_fun to_normal D2) (gfam o E2 s) s (den X) ls rs _ l2 r2 l5 r5
   (rcons bs (0%N, 0%N, sketch_ st)) l1 r1 l3 r3.
- by clear -d1; rewrite -/d; lia.
- move=> b; rewrite -cats1 => hb.
  by have [hb1|[<-|//]] := List.in_app_or _ _ _ hb; [apply: h1|].
- move=> i j hi hj; rewrite -cats1; case eij: ((i, j) == (0%N, 0%N)).
    by exists (0%N, 0%N, sketch_ st); [apply/List.in_or_app; right; left|rewrite (eqP eij)].
  have [|b hb1 hb2] := h2 i j hi hj; first by rewrite inE eij.
  by exists b => //; apply/List.in_or_app; left.
move: ec; rewrite /assemble_blocked /= => -> /=.
eexists; first by [].
split=> //=; apply: is_sketch_ext hc => // mu hm; first by rewrite l4 /drm_cols rD2.
by rewrite r4 (made_rcols mE2 hm).
Qed.
End Blocked.
