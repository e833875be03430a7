(* C55: with random DRMs, exact recovery fails only with small probability. *)
From Coq Require Import String Ascii NArith.
From mathcomp Require Import all_ssreflect all_algebra.
From mathcomp Require Import zify.
From Verif Require Import Py Nd NdThy Utils TrimThy Tensor Spec LinSpec ChainThy SweepThy Rng Random Sketch SkSpec RecSpec RecThy2 SkThy1 SkThy9 SkThy12 SkThy13 SkThy14 RankThy RecThy4 TensorThy2 LinExist Prop_LinEx Prop_Random Prop_Sketch Prop_Recovery Prop_Orth ProbSpec SZThy GenericSpec GenericThy1 GenericThy2 GenericThy3 GenericThy4.
Set Implicit Arguments. Unset Strict Implicit. Unset Printing Implicit Defensive.
Import Order.POrderTheory GRing.Theory Num.Theory.
Local Open Scope ring_scope.

Section Link.
Variables (R : rcfType) (T B : nat) (state : N -> nat -> N) (qr : nd R -> res (nd R * nd R)).
Variable words : seq N.
Variables (to_normal : N -> R) (stream : N -> nat -> R) (offset : N -> nat -> N).
Notation pos := (position words T B).
Implicit Types (w : pos -> R).
Notation cores w := (drm_cores (gen_of w) T state qr).
Notation new w := (drm_new (cores w) stream offset).

Lemma new_attr w ent k s t sd D : (0 < size s)%N -> size k = (size s).-1 ->
  new w TensorTrainDRM ent (RTuple k) s t (Some sd) = Ok D ->
  [/\ d_class D = TensorTrainDRM, d_rank_min D = nseq (size s).-1 0%N, d_rank D = flip t k &
   d_cores D = [seq core_of T state (gen_of w) (flip t s) (flip t k) (N.modulo sd seed_mod) mu | mu <- iota 0 (size s).-1]].
Proof.
move=> s0 sk e; have hp := process_rtuple s0 sk.
have aa : new_args TensorTrainDRM k (Some sd) by split.
have [D0 [e0 [e1 _ _ _] [_ e2 e3 _ _] _]] := drm_newE stream offset (@C51_drm_cores_ok _ (gen_of w) T state qr) ent t hp aa.
move: e0; rewrite e => -[?]; subst D0; split=> //.
move: e; rewrite /drm_new /drm_init hp; cbn [bind]; case=> <-; cbn [d_cores].
rewrite -/(flip t s) -/(flip t k) drm_coresE ?size_flip // size_map size_iota -map_take take_iota.
by congr (map _ (iota _ _)); apply/minn_idPl; rewrite leq_pred.
Qed.

Lemma left_Lm w ent k s sd D mu : (mu < (size s).-1)%N -> size k = (size s).-1 ->
  new w TensorTrainDRM ent (RTuple k) s false (Some sd) = Ok D ->
  fmat (take mu.+1 s) (left_fun to_normal D mu) (nth 0%N k mu) = Lm state s k (N.modulo sd seed_mod) w mu.
Proof.
move=> hm sk e; have [|ec em er eC] := new_attr _ sk e; first by clear -hm; lia.
apply/matrixP=> p c; rewrite !mxE /left_fun /drm_entry ec em eC /fL /csL nth_nseq.
by case: ifP => _; rewrite add0n.
Qed.

Lemma right_Rm w ent k s sd E mu : (mu < (size s).-1)%N -> size k = (size s).-1 ->
  new w TensorTrainDRM ent (RTuple k) s true (Some sd) = Ok E ->
  fmat (drop mu.+1 s) (right_fun to_normal E (size s) mu) (nth 0%N k mu) = Rm state s k (N.modulo sd seed_mod) w mu.
Proof.
move=> hm sk e; have [|ec em er eC] := new_attr _ sk e; first by clear -hm; lia.
apply/matrixP=> p c; rewrite !mxE /right_fun /drm_entry ec em eC /gR /csR nth_nseq /=.
have -> : (size s - mu.+2).+1 = (size s - mu.+1)%N by clear -hm; lia.
by case: ifP => _; rewrite add0n.
Qed.
End Link.

Lemma below_nth l k : below l k -> forall b mu, (nth b l mu <= nth b k mu)%N.
Proof.
move=> [sz h] b mu; case: (ltnP mu (size l)) => hm; last by rewrite !nth_default // -sz.
by rewrite !(set_nth_default 0%N b) -?sz.
Qed.
Lemma rank_before_mono l k mu : below l k -> (rank_before l mu <= rank_before k mu)%N.
Proof. by move=> h; case: mu => //= mu; apply: below_nth. Qed.
Lemma core_size_mono s l k mu : below l k -> (core_size s l mu <= core_size s k mu)%N.
Proof.
move=> h; rewrite /core_size !leq_mul // ?rank_before_mono // !nth_cat; have [sz _] := h; rewrite sz.
by case: ifP => // _; apply: below_nth.
Qed.
Lemma below_rev l k : below l k -> below (rev l) (rev k).
Proof.
move=> h; have [sz _] := h; split=> [|mu]; first by rewrite !size_rev.
case: (ltnP mu (size l)) => hm; last by rewrite !nth_default // size_rev -?sz.
by rewrite !nth_rev -?sz //; apply: below_nth.
Qed.

Section Theorems.
Variable R : rcfType.
Variable to_normal : N -> R.
Variable stream : N -> nat -> R.
Variable offset : N -> nat -> N.
Variable right_seed_of : N -> nat -> N.
Variable lstsq : nd R -> nd R -> res (nd R).
Variable qr_econ : nd R -> res (nd R * nd R).
Hypothesis lstsq_ok : lstsq_contract lstsq.
Hypothesis qr_ok : qr_contract qr_econ.
Variables (T B : nat) (state : N -> nat -> N) (qr : nd R -> res (nd R * nd R)).
Hypothesis T0 : (0 < T)%N.
Notation C0 := (C0 R).

Lemma rc_of words (w : position words T B -> R) ent lk rk s sdl sdr D E x c : (1 < size s)%N -> size lk = (size s).-1 -> size rk = (size s).-1 ->
  drm_new (drm_cores (gen_of w) T state qr) stream offset TensorTrainDRM ent (RTuple lk) s false (Some sdl) = Ok D ->
  drm_new (drm_cores (gen_of w) T state qr) stream offset TensorTrainDRM ent (RTuple rk) s true (Some sdr) = Ok E ->
  is_sketch to_normal D E s x c ->
  (forall mu, (mu < (size s).-1)%N -> \rank (Om state s x lk rk (N.modulo sdl seed_mod) (N.modulo sdr seed_mod) w mu) = \rank (unfolding s x mu)) ->
  rank_condition D E s x c.
Proof.
move=> d1 sl sr eD eE [_ _ _ hO] h mu hm; have [_ _ gO] := hO mu hm.
have s0 : (0 < size s)%N by clear -d1; lia.
have [_ _ rD _] := new_attr s0 sl eD; have [_ _ rE _] := new_attr s0 sr eE.
have eD1 : drm_cols D mu = nth 0%N lk mu by rewrite /drm_cols rD.
have eE1 : drm_cols E (size s - mu.+2) = nth 0%N rk mu.
  rewrite /drm_cols rE /flip nth_rev sr; last by clear -hm; lia.
  by congr nth; clear -hm; lia.
have -> : amat (nth C0 (Omega_mats c) mu) (drm_cols D mu) (drm_cols E (size s - mu.+2)) =
   \matrix_(a < drm_cols D mu, b < drm_cols E (size s - mu.+2)) Omega_of (left_fun to_normal D mu) (right_fun to_normal E (size s) mu) s x mu a b.
  by apply/matrixP=> a b; rewrite !mxE gO.
rewrite eD1 eE1 omega_mx (left_Lm to_normal hm sl eD) (right_Rm to_normal hm sr eE); exact: h.
Qed.

Section Draws.
Variables (V : finType) (p : R).
Hypothesis p0 : 0 <= p.

(* the seed words of the cores of the left and the right DRM *)
Definition both_words (s : seq nat) (sl sr : N) : seq N :=
  [seq state (N.modulo sl seed_mod) mu | mu <- iota 0 (size s)] ++ [seq state (N.modulo sr seed_mod) mu | mu <- iota 0 (size s)].
Definition right_words (s : seq nat) (sr : N) : seq N := [seq state (N.modulo sr seed_mod) mu | mu <- iota 0 (size s)].

Lemma draw_om (s lk rk lk' rk' : seq nat) x sl sr : let words := both_words s sl sr in
  forall (wt vl : position words T B -> V -> R), distributions wt p -> (forall i, injective (vl i)) -> uniq words ->
  (1 < size s)%N -> size lk = (size s).-1 -> size rk = (size s).-1 ->
  all (fun n => 0 < n)%N lk' -> all (fun n => 0 < n)%N rk' -> below lk' lk -> below rk' rk ->
  (forall mu, (mu < size s)%N -> (core_size s lk mu <= B)%N /\ (core_size (rev s) (rev rk) mu <= B)%N) ->
  (forall mu, (mu < (size s).-1)%N -> (\rank (unfolding s x mu) <= nth 0 lk' mu)%N /\ (\rank (unfolding s x mu) <= nth 0 rk' mu)%N) ->
  exists Bad, prob wt Bad <= (size s * \sum_(0 <= mu < (size s).-1) \rank (unfolding s x mu))%N%:R * p /\
   forall w, ~~ Bad w -> forall mu, (mu < (size s).-1)%N ->
     \rank (Om state s x lk' rk' (N.modulo sl seed_mod) (N.modulo sr seed_mod) (drawn_values vl w) mu) = \rank (unfolding s x mu).
Proof.
move=> words wt vl wtP vlP uw d1 slk srk pl pr bl br hB hR.
have slk' : size lk' = (size s).-1 by case: bl => ->.
have srk' : size rk' = (size s).-1 by case: br => ->.
pose OM := Om (words := words) (T := T) (B := B) state s x lk' rk' (N.modulo sl seed_mod) (N.modulo sr seed_mod).
have [||||w0 hw0] := @good_draw R T B state s x lk' rk' (N.modulo sl seed_mod) (N.modulo sr seed_mod) words slk' srk' pl pr T0 uw _ _ _ _ erefl.
- by move=> mu hm; apply: leq_trans (core_size_mono _ _ bl) (hB mu hm).1.
- by move=> mu hm; apply: leq_trans (core_size_mono _ _ (below_rev br)) (hB mu hm).2.
- by move=> mu hm; apply: (hR mu hm).1.
- by move=> mu hm; apply: (hR mu hm).2.
exists [pred w | has (fun mu => \rank (OM (asg vl w) mu) < \rank (OM w0 mu))%N (iota 0 (size s).-1)]; split.
  rewrite big_distrr /=.
  apply: (prob_any wtP (B := fun mu => [pred w | (\rank (OM (asg vl w) mu) < \rank (OM w0 mu))%N])) => mu hm.
  rewrite mulnC -(hw0 mu hm); apply: (gen_rank wtP p0 vlP (F := fun w => OM w mu)) => a b; exact: Om_tdeg.
move=> w /hasPn h mu hm; have := h mu; rewrite mem_iota hm -leqNgt => /(_ isT); rewrite /OM hw0 // => le.
apply/eqP; rewrite eqn_leq le andbT; apply: leq_trans (mxrankM_maxl _ _) _; exact: mxrankM_maxr.
Qed.

Lemma draw_xr (s rk rk' : seq nat) x sr : let words := right_words s sr in
  forall (wt vl : position words T B -> V -> R), distributions wt p -> (forall i, injective (vl i)) -> uniq words ->
  (1 < size s)%N -> size rk = (size s).-1 -> all (fun n => 0 < n)%N rk' -> below rk' rk ->
  (forall mu, (mu < size s)%N -> (core_size (rev s) (rev rk) mu <= B)%N) ->
  (forall mu, (mu < (size s).-1)%N -> (\rank (unfolding s x mu) <= nth 0 rk' mu)%N) ->
  exists Bad, prob wt Bad <= (\sum_(0 <= mu < (size s).-1) (size s - mu.+1) * \rank (unfolding s x mu))%N%:R * p /\
   forall w, ~~ Bad w -> forall mu, (mu < (size s).-1)%N ->
     \rank (XR state s x rk' (N.modulo sr seed_mod) (drawn_values vl w) mu) = \rank (unfolding s x mu).
Proof.
move=> words wt vl wtP vlP uw d1 srk pr br hB hR.
have srk' : size rk' = (size s).-1 by case: br => ->.
pose OM := XR (words := words) (T := T) (B := B) state s x rk' (N.modulo sr seed_mod).
have [||w0 hw0] := @good_right R T B state s x rk' (N.modulo sr seed_mod) words srk' pr T0 uw _ _ erefl.
- by move=> mu hm; apply: leq_trans (core_size_mono _ _ (below_rev br)) (hB mu hm).
- by move=> mu hm; apply: (hR mu hm).
exists [pred w | has (fun mu => \rank (OM (asg vl w) mu) < \rank (OM w0 mu))%N (iota 0 (size s).-1)]; split.
  apply: (prob_any wtP (B := fun mu => [pred w | (\rank (OM (asg vl w) mu) < \rank (OM w0 mu))%N])) => mu hm.
  rewrite mulnC -(hw0 mu hm); apply: (gen_rank wtP p0 vlP (F := fun w => OM w mu)) => a b; exact: XR_tdeg.
move=> w /hasPn h mu hm; have := h mu; rewrite mem_iota hm -leqNgt => /(_ isT); rewrite /OM hw0 // => le.
apply/eqP; rewrite eqn_leq le andbT; exact: mxrankM_maxl.
Qed.
End Draws.

Notation cores vl w := (drm_cores (gen_of (drawn_values vl w)) T state qr).
Notation stream_sketch vl w := (stream_sketch to_normal (cores vl w) stream offset right_seed_of lstsq qr_econ).
Notation orthogonal_sketch vl w := (orthogonal_sketch to_normal (cores vl w) stream offset right_seed_of lstsq qr_econ).
Notation hmt_sketch vl w := (hmt_sketch to_normal (cores vl w) stream offset lstsq qr_econ).
Notation to_tt := (stt_to_tt lstsq).
Implicit Types (X : tensor R) (a : nd R).

(* the seed that is used when the argument is seed *)
Definition the_seed (seed : option N) (ent : nat -> N) : N := if seed is Some s then s else ent 0%N.

(* stream_sketch(X, l, r).to_tt() with the default DRMs recovers X exactly, up to an event of
   probability at most d (sum of the TT ranks of X) p, if the requested ranks are not smaller than
   the TT ranks of X.  The normal values are independent, at each position with an arbitrary
   distribution whose outcomes have probability at most p. *)
Theorem C55_stream_sketch (V : finType) (p : R) X a l r lk rk seed ent (lbig : bool) :
  let s := tshape X in let d := size s in
  let words := both_words s (the_seed seed ent) (right_seed_of (the_seed seed ent) d) in
  forall (wt vl : position words T B -> V -> R),
  0 <= p -> distributions wt p -> (forall i, injective (vl i)) -> uniq words ->
  (forall mu, (mu < d)%N -> (core_size s lk mu <= B)%N /\ (core_size (rev s) (rev rk) mu <= B)%N) ->
  wf X -> to_numpy X = Ok a -> right_ok X -> (1 < d)%N -> all (fun n => 0 < n)%N s ->
  process_tt_rank l s false = Ok lk -> process_tt_rank r s false = Ok rk ->
  all (fun n => 0 < n)%N lk -> all (fun n => 0 < n)%N rk ->
  (forall mu, (mu < d.-1)%N -> if lbig then (nth 0 rk mu < nth 0 lk mu)%N else (nth 0 lk mu < nth 0 rk mu)%N) ->
  (forall mu, (mu < d.-1)%N -> (\rank (unfolding s (get a) mu) <= minn (nth 0 lk mu) (nth 0 rk mu))%N) ->
  exists Bad, prob wt Bad <= (d * \sum_(0 <= mu < d.-1) \rank (unfolding s (get a) mu))%N%:R * p /\
   forall w, ~~ Bad w -> exists2 st, stream_sketch vl w X l r seed None None None None ent = Ok st &
    or_linalg (to_tt st) (fun cs => to_numpy (TT cs) = Ok a).
Proof.
move=> s d words wt vl p0 wtP vlP uw hB hw ea rX d1 hs pl pr hl hr hb hR.
have s0 : (0 < size s)%N by rewrite -/d; clear -d1; lia.
have [_ slk] := SkThy9.process_size pl erefl; have [_ srk] := SkThy9.process_size pr erefl.
pose lk' := trim_if (~~ lbig) s lk; pose rk' := trim_if lbig s rk.
have pt b (k : seq nat) : size k = d.-1 -> all (fun n => 0 < n)%N k -> [/\ all (fun n => 0 < n)%N (trim_if b s k), below (trim_if b s k) k & size (trim_if b s k) = d.-1].
  by move=> sk hk; rewrite /trim_if; case: b => //; have [h1 h2 h3 _] := trim_bounds hs hk s0 sk; rewrite h1.
have [pl1 pl2 pl3] := pt (~~ lbig) lk slk hl; have [pr1 pr2 pr3] := pt lbig rk srk hr.
have hlr mu : (mu < d.-1)%N -> (\rank (unfolding s (get a) mu) <= nth 0 lk mu)%N /\ (\rank (unfolding s (get a) mu) <= nth 0 rk mu)%N.
  by move=> hm; have := hR mu hm; rewrite leq_min => /andP.
have hlr' mu : (mu < d.-1)%N -> (\rank (unfolding s (get a) mu) <= nth 0 lk' mu)%N /\ (\rank (unfolding s (get a) mu) <= nth 0 rk' mu)%N.
  have hl1 nu : (nu < d.-1)%N -> (\rank (unfolding s (get a) nu) <= nth 0 lk nu)%N by move=> /hlr[].
  have hr1 nu : (nu < d.-1)%N -> (\rank (unfolding s (get a) nu) <= nth 0 rk nu)%N by move=> /hlr[].
  move=> hm; rewrite /lk' /rk' /trim_if; split; case: (lbig) => /=; try by apply hl1 || apply hr1.
    exact: rank_trim.
  exact: rank_trim.
have [Bad [hP hBad]] := draw_om p0 wtP vlP uw d1 slk srk pl1 pr1 pl2 pr2 hB hlr'.
exists Bad; split=> // w /hBad rc.
have ho := @C51_drm_cores_ok _ (gen_of (drawn_values vl w)) T state qr.
have [st es [_ _ _ _ hsk]] := C21_stream_sketch_default to_normal stream offset right_seed_of lstsq qr_econ seed ent ho hw ea rX d1 hs pl pr hl hr hb.
have [st' es' h] := C28_stream_sketch_default to_normal stream offset right_seed_of qr_econ lstsq_ok seed ent ho hw ea rX d1 hs pl pr hl hr hb.
move: es'; rewrite es => -[est]; rewrite -est in h; exists st => //; apply: h.
have [||D [E [eDE [eD _ _ _] [eE _ _ _] _]]] := @make_newE R (cores vl w) stream offset right_seed_of ho s l r lk rk seed None None ent (~~ lbig) lbig d1 hs pl pr hl hr.
- by split.
- by split.
have [eDs eEs] : left_drm st = D /\ right_drm st = E.
  have [bl [el Hl]] := rank_gtE d1 pl pr; have [br [er Hr]] := rank_gtE d1 pr pl.
  have d0 : (0 < d.-1)%N by clear -d1; lia.
  have [ebl ebr] : bl = lbig /\ br = ~~ lbig.
    case: (lbig) hb => hb; split; try by (apply/Hl || apply/Hr).
      by apply/negbTE/negP => /Hr/(_ 0%N d0); have := hb 0%N d0; clear; lia.
    by apply/negbTE/negP => /Hl/(_ 0%N d0); have := hb 0%N d0; clear; lia.
  move: es; rewrite /Sketch.stream_sketch el er ebl ebr; cbn [bind]; case: ifP => // _; rewrite eDE; cbn [bind].
  by case: (general_sketch _ _ _ _ _ _ _) => //= c [<-].
move: hsk; rewrite eDs eEs => hsk; exact: (rc_of d1 pl3 pr3 eD eE hsk).
Qed.

(* orthogonal_sketch(X, l, r) with the default DRMs: the same bound *)
Theorem C55_orthogonal_sketch (V : finType) (p : R) X a l r lk rk seed ent :
  let s := tshape X in let d := size s in
  let words := both_words s (the_seed seed ent) (right_seed_of (the_seed seed ent) d) in
  forall (wt vl : position words T B -> V -> R),
  0 <= p -> distributions wt p -> (forall i, injective (vl i)) -> uniq words ->
  (forall mu, (mu < d)%N -> (core_size s lk mu <= B)%N /\ (core_size (rev s) (rev rk) mu <= B)%N) ->
  wf X -> to_numpy X = Ok a -> right_ok X -> (1 < d <= 102)%N -> all (fun n => 0 < n)%N s ->
  process_tt_rank l s false = Ok lk -> process_tt_rank r s false = Ok rk ->
  all (fun n => 0 < n)%N lk -> all (fun n => 0 < n)%N rk ->
  (forall mu, (mu < d.-1)%N -> (nth 0 lk mu < nth 0 rk mu)%N) ->
  (forall mu, (mu < d.-1)%N -> (\rank (unfolding s (get a) mu) <= nth 0 lk mu)%N) ->
  exists Bad, prob wt Bad <= (d * \sum_(0 <= mu < d.-1) \rank (unfolding s (get a) mu))%N%:R * p /\
   forall w, ~~ Bad w -> or_linalg (orthogonal_sketch vl w X l r seed None None None None ent) (fun cs => to_numpy (TT cs) = Ok a).
Proof.
move=> s d words wt vl p0 wtP vlP uw hB hw ea rX /andP[d1 d102] hs pl pr hl hr hb hR.
have s0 : (0 < size s)%N by rewrite -/d; clear -d1; lia.
have [_ slk] := SkThy9.process_size pl erefl; have [_ srk] := SkThy9.process_size pr erefl.
have [fe pk st] := trim_left_fits hs hl s0 slk d102.
have [t1 t2 t3 _] := trim_bounds hs hl s0 slk.
have brr : below rk rk by split.
have hlr mu : (mu < d.-1)%N -> (\rank (unfolding s (get a) mu) <= nth 0 (trim_ranks s lk) mu)%N /\ (\rank (unfolding s (get a) mu) <= nth 0 rk mu)%N.
  by move=> hm; split; [apply: rank_trim|apply: leq_trans (hR mu hm) _; apply: ltnW; apply: hb].
have [Bad [hP hBad]] := draw_om p0 wtP vlP uw d1 slk srk t2 hr t3 brr hB hlr.
exists Bad; split=> // w /hBad rc.
have ho := @C51_drm_cores_ok _ (gen_of (drawn_values vl w)) T state qr.
have [||D [E [eDE [eD mD cD _] [eE mE cE _] [p1 p2]]]] := @make_newE R (cores vl w) stream offset right_seed_of ho s l r lk rk seed None None ent true false d1 hs pl pr hl hr.
- by split.
- by split.
rewrite /trim_if in mD mE eD eE p1 p2; have [[gD sD tD rD] _] := made_good ho mD; have [[gE sE tE rE] _] := made_good ho mE.
have fD : fits D d.-1 X by apply: (fits_tt ho X mD cD p1).
have fE : fits E d.-1 X by apply: (fits_tt ho X mE cE p2).
have hp : pair_ok D E s by [].
have pD : all (fun n => 0 < n)%N (d_rank D) by rewrite rD.
have pE : all (fun n => 0 < n)%N (d_rank E) by rewrite rE /SkThy9.flip all_rev.
have lf : left_fits s (d_rank D) by rewrite rD.
have [c0 ec0 hsk] := gs_isk to_normal lstsq qr_econ (wf_gen_rep hw) d1 hp fD fE (rX : order_ok true X).
have call : orthogonal_sketch vl w X l r seed None None None None ent = do c <- general_sketch to_normal lstsq qr_econ X (Some D) E Orthogonal; Ok (Psi_cores c).
  have [b [e rb]] := rank_gtE d1 pr pl.
  by rewrite /Sketch.orthogonal_sketch e; case: rb => [_|[]//]; cbn [bind negb]; rewrite eDE.
have hsk' : is_sketch to_normal D E s (get a) c0 by exact: (is_sk_numpy (o := true) hw ea hsk).
have rcd : rank_condition D E s (get a) c0 by exact: (rc_of d1 st srk eD eE hsk' rc).
rewrite call; by apply: or_bind (@C29_orthogonal_exact _ to_normal _ _ lstsq_ok qr_ok true X a D E c0 hw ea d1 hp fD fE rX hs pD pE lf ec0 rcd) _ => c [].
Qed.

(* hmt_sketch(X, rank) with the default DRM *)
Theorem C55_hmt_sketch (V : finType) (p : R) X a rank rk seed ent :
  let s := tshape X in let d := size s in
  let words := right_words s (the_seed seed ent) in
  forall (wt vl : position words T B -> V -> R),
  0 <= p -> distributions wt p -> (forall i, injective (vl i)) -> uniq words ->
  (forall mu, (mu < d)%N -> (core_size (rev s) (rev rk) mu <= B)%N) ->
  wf X -> to_numpy X = Ok a -> right_ok X -> (1 < d <= 102)%N -> all (fun n => 0 < n)%N s ->
  process_tt_rank rank s false = Ok rk -> all (fun n => 0 < n)%N rk ->
  (forall mu, (mu < d.-1)%N -> (\rank (unfolding s (get a) mu) <= nth 0 rk mu)%N) ->
  exists Bad, prob wt Bad <= (\sum_(0 <= mu < d.-1) (d - mu.+1) * \rank (unfolding s (get a) mu))%N%:R * p /\
   forall w, ~~ Bad w -> or_linalg (hmt_sketch vl w X rank seed None None false ent) (fun cs => to_numpy (TT cs) = Ok a).
Proof.
move=> s d words wt vl p0 wtP vlP uw hB hw ea rX /andP[d1 d102] hs hp hk hR.
have s0 : (0 < size s)%N by rewrite -/d; clear -d1; lia.
have [_ sk] := SkThy9.process_size hp erefl.
have [fe pk st] := trim_left_fits hs hk s0 sk d102.
have [t1 t2 t3 _] := trim_bounds hs hk s0 sk.
have [Bad [hP hBad]] := draw_xr p0 wtP vlP uw d1 sk t2 t3 hB (rank_trim hs hk s0 sk hR).
exists Bad; split=> // w /hBad rc.
have ho := @C51_drm_cores_ok _ (gen_of (drawn_values vl w)) T state qr.
have aa : new_args TensorTrainDRM (trim_ranks s rk) (Some (the_seed seed ent)) by split.
have [E [eE [cE sE tE _] [_ rE _ _ _] gE]] := SkThy9.drm_newE stream offset ho ent true (process_rtuple s0 st) aa.
have mE : made (cores vl w) stream offset true s (trim_ranks s rk) E.
  by exists TensorTrainDRM, ent, (RTuple (trim_ranks s rk)), (Some (the_seed seed ent)); split=> //; apply: process_rtuple.
have oE : right_ok_drm E s by [].
have fE : fits E d.-1 X by apply: (fits_tt ho X mE cE pk).
have eR : rev (d_rank E) = trim_ranks s rk by rewrite rE /SkThy9.flip revK.
have pE : all (fun n => 0 < n)%N (d_rank E) by rewrite -all_rev eR.
have lf : left_fits s (rev (d_rank E)) by rewrite eR.
have call : hmt_sketch vl w X rank seed None None false ent = do c <- general_sketch to_normal lstsq qr_econ X None E Hmt; Ok (Psi_cores c).
  by rewrite /Sketch.hmt_sketch (process_trimE true hp); cbn [bind]; rewrite -/s -/(the_seed seed ent) eE.
have rcd : right_rank_condition to_normal true E s (get a).
  move=> mu hm; rewrite -(rc mu hm) /XR /gfam /drm_cols rE /flip nth_rev st; last by clear -hm; lia.
  have -> : ((size s).-1 - (size s - mu.+2).+1)%N = mu by clear -hm; lia.
  by rewrite (right_Rm to_normal hm st eE).
rewrite call; by apply: or_bind (@C30_hmt_exact _ to_normal lstsq _ qr_ok true X a E hw ea d1 oE fE rX hs pE lf rcd) _ => c.
Qed.
End Theorems.

(* ---- dense arrays ---- *)
(* For dense arrays of three or more modes the statement is false, whatever the random numbers:
   the 2 x 2 x 2 array with entries a[i, j, k] = (i == j) has TT ranks (2, 1), but
   stream_sketch(DenseTensor(a), (3, 2), (2, 1)).to_tt() is never a. *)
Section Dense.
Variable R : rcfType.
Variable to_normal : N -> R.
Variable stream : N -> nat -> R.
Variable offset : N -> nat -> N.
Variable right_seed_of : N -> nat -> N.
Variable lstsq : nd R -> nd R -> res (nd R).
Variable qr_econ : nd R -> res (nd R * nd R).
Hypothesis lstsq_ok : lstsq_contract lstsq.

Definition diag_array : nd R := tab [:: 2; 2; 2]%N (fun i => (nth 0%N i 0 == nth 0%N i 1)%:R).
Notation a := diag_array.

Theorem C55_dense_refuted : let X := Dense a in let s := tshape X in
  [/\ s = [:: 2; 2; 2]%N, to_numpy X = Ok a, (\rank (unfolding s (get a) 0) <= 2)%N, (\rank (unfolding s (get a) 1) <= 1)%N &
   forall tt_random seed ent, tt_random_ok tt_random ->
   exists2 st, stream_sketch to_normal tt_random stream offset right_seed_of lstsq qr_econ X (RTuple [:: 3; 2]%N) (RTuple [:: 2; 1]%N) seed None None None None ent = Ok st &
    or_linalg (stt_to_tt lstsq st) (fun cs => to_numpy (TT cs) <> Ok a)].
Proof.
move=> X s; have es : s = [:: 2; 2; 2]%N by [].
have ga i j k : (i < 2)%N -> (j < 2)%N -> (k < 2)%N -> get a [:: i; j; k] = (i == j)%:R.
  by move=> hi hj hk; rewrite /a get_tab //= hi hj hk.
have wX : wf X by rewrite /wf /= /wf_gen ?nwf_tab.
split=> //.
- by apply: leq_trans (rank_leq_row _) _.
- apply/bond_rankP; exists (fun i c => (nth 0%N i 0 == nth 0%N i 1)%:R), (fun _ _ => 1) => i j.
  rewrite big_nat1 mulr1; case: i => [|i0 [|i1 [|i2 i]]]; rewrite /= ?andbF //; case: j => [|j0 [|j1 j]]; rewrite /= ?andbF ?andbT //.
  by case/andP=> h0 h1 h2; rewrite ga.
move=> tt_random seed ent ho.
have d1 : (1 < size s)%N by [].
have tt0 c rk0 sd : c = TensorTrainDRM -> new_args c rk0 sd by move=> ->; split.
have hp : forall k : seq nat, size k = 2%N -> process_tt_rank (RTuple k) s false = Ok k.
  by move=> k sk; apply: process_rtuple => //; rewrite sk.
have mk t k ent0 sd D : size k = 2%N -> all (fun n => 0 < n)%N k ->
   drm_new tt_random stream offset TensorTrainDRM ent0 (RTuple k) s t (Some sd) = Ok D -> fits D (size s).-1 X.
  move=> sk hk e; have hm : made tt_random stream offset t s k D.
    by exists TensorTrainDRM, ent0, (RTuple k), (Some sd); split=> //; apply: hp.
  have [D0 [e0 [ec _ _ _] _ _]] := drm_newE stream offset ho ent0 t (hp k sk) (tt0 TensorTrainDRM k (Some sd) erefl).
  have cD : d_class D = TensorTrainDRM by move: e0; rewrite e => -[->].
  exact: (fits_tt ho X hm cD hk).
have bt mu : (mu < (size s).-1)%N -> if true then (nth 0 [:: 2; 1] mu < nth 0 [:: 3; 2] mu)%N else (nth 0 [:: 3; 2] mu < nth 0 [:: 2; 1] mu)%N.
  by case: mu => [|[|mu]].
have [t1 t2 _ _] := @trim_bounds s [:: 2; 1]%N erefl erefl erefl erefl.
have [||||st est [mD mE [cD cE] _ hsk]] := @stream_newE R to_normal tt_random stream offset right_seed_of lstsq qr_econ ho
   false X (RTuple [:: 3; 2]%N) (RTuple [:: 2; 1]%N) [:: 3; 2]%N [:: 2; 1]%N seed None None ent (wf_gen_rep wX) erefl d1 erefl
   (hp [:: 3; 2]%N erefl) (hp [:: 2; 1]%N erefl) erefl erefl true bt.
- exact: tt0.
- exact: tt0.
- by move=> D; apply: mk.
- by move=> E; apply: mk; rewrite /trim_if ?t1.
exists st => //.
have etr : trim_ranks s [:: 2; 1]%N = [:: 2; 1]%N.
  by vm_compute.
have {}hsk : is_sk to_normal false (left_drm st) (right_drm st) s (get a) (sketch_ st) by exact: (is_sk_numpy (o := false) wX erefl hsk).
rewrite /= /trim_if /= in mD mE; rewrite -/s etr in mE.
have [[gD sD tD rD] _] := made_good ho mD; have [[gE sE tE rE] _] := made_good ho mE.
have fE : fits (right_drm st) (size s).-1 X by apply: (fits_tt ho X mE cE).
have gmk : sketch_ st = mk_container (Psi_cores (sketch_ st)) (Omega_mats (sketch_ st)).
  move: est; move: (RTuple [:: 3; 2]%N) (RTuple [:: 2; 1]%N) => l r; rewrite /Sketch.stream_sketch; do 2 (case: (rank_gt _ _) => //= ?); case: ifP => // _.
  case: (make_drms _ _ _ _ _ _ _ _ _ _ _ _ _ _ _) => //= p; case e : (general_sketch _ _ _ _ _ _ _) => [c|] //= [<-] /=.
  exact: gs_mk e.
have [_ kl kr] := mk_ranks hsk gmk erefl.
rewrite /stt_to_tt (@auto_dir R lstsq _ [:: 3; 2]%N [:: 2; 1]%N); first last.
- by [].
- by rewrite kr /= /drm_cols rE.
- by rewrite kl /= /drm_cols rD.
change (if all _ _ then _ else _) with DirLeft.
(* the right matrix of bond 0 factors *)
have [G [H eG]] : exists G H, forall j1 j2 c, (j1 < 2)%N -> (j2 < 2)%N ->
    right_fun_dense to_normal (right_drm st) s 0 [:: j1; j2] c = G j1 * H j2 c.
  have us : unsliced (right_drm st) 2 by move: fE; rewrite /= /fits1 cE.
  have [u1 u2 u3] := us 0%N erefl.
  have [] : drm_valid (right_drm st) 2 /\ size (d_rank (right_drm st)) = 2%N by case: gE; rewrite sE.
  rewrite /drm_valid cE => -[sc _ _ [_ _ _ wn] _] _; have [_ w2] := wn 0%N erefl.
  have d2 : dim (nth (C0 R) (d_cores (right_drm st)) 0) 2 = 1%N by rewrite -u2 -[RHS]/(nth 0%N (SkThy9.flip true [:: 2; 1]%N) 0) -rE w2 u1 subn0.
  exists (fun j1 => get (nth (C0 R) (d_cores (right_drm st)) 0) [:: 0; j1; 0]%N),
    (fun j2 c => chain (take 1 (behead (d_cores (right_drm st)))) [:: j2] 0 (nth 0%N (d_rank_min (right_drm st)) 1 + c)).
  move=> j1 j2 c h1 h2; rewrite /right_fun_dense /drm_entry cE.
  have -> : unravel (rev (drop 1 s)) (ravel (drop 1 s) [:: j1; j2]) = [:: j1; j2].
    by case: j1 j2 h1 h2 => [|[|j1]] // [|[|j2]].
  case: (d_cores (right_drm st)) sc d2 => [|K [|K2 Ks]] //= _ d2.
  by rewrite d2 big_nat1.
have ps mu : (mu < size s)%N -> (0 < nth 0 s mu)%N by case: mu => [|[|[|mu]]].
have pl mu : (mu < (size s).-1)%N -> (0 < drm_cols (left_drm st) mu)%N by rewrite /drm_cols rD; case: mu => [|[|mu]].
have pr mu : (mu < (size s).-1)%N -> (0 < drm_cols (right_drm st) (size s - mu.+2))%N by rewrite /drm_cols rE; case: mu => [|[|mu]].
apply: or_imp (asmLE lstsq_ok d1 hsk ps pl pr) _ => cs [lk dm rk _ e0] ea.
have wt : wf_tt cs.
  by rewrite /wf_tt lk andbT; case: (cs) dm.
have [y] := @to_numpyE R (TT cs) wt; rewrite ea => -[ey] [_ _ gy]; rewrite -{y}ey in gy.
have gP k b : (k < 2)%N -> (b < 2)%N -> get (nth (C0 R) cs 0) [:: 0; k; b]%N = G k * (H 0%N b + H 1%N b).
  move=> hk hb; rewrite e0; case: hsk => _ _ /(_ 0%N erefl)[_ _ hP] _.
  rewrite hP //; last by rewrite /at_right /= /drm_cols rE.
  rewrite /Psi_of (_ : take 0 s = [::]) // (_ : drop 1 s = [:: 2; 2]%N) //.
  have e j1 j2 : (j1 < 2)%N -> (j2 < 2)%N -> at_left (left_fun to_normal (left_drm st)) (@one_fun R) 0 [::] 0%N * get a ([::] ++ [:: k; j1; j2])
     * at_right (gfam to_normal false (right_drm st) s) (@one_fun R) (size s) 0 [:: j1; j2] b = (k == j1)%:R * (G j1 * H j2 b).
    move=> h1 h2; rewrite -[LHS]/(1 * get a [:: k; j1; j2] * right_fun_dense to_normal (right_drm st) s 0 [:: j1; j2] b).
    by rewrite mul1r ga // eG.
  have e4 (F : seq nat -> R) : sum_idx [:: 2; 2]%N F = F [:: 0; 0]%N + F [:: 0; 1]%N + (F [:: 1; 0]%N + F [:: 1; 1]%N).
    by rewrite /= !unlock /= !addr0.
  rewrite -[LHS]/(sum_idx [:: 2; 2]%N (fun j => _)) e4.
  by rewrite !e //; case: k hk {hP e} => [|[|k]] //= _; rewrite ?mul1r ?mul0r ?addr0 ?add0r mulrDr.
have st3 : tshape (TT cs) = [:: 2; 2; 2]%N by rewrite /= dm.
pose Z j := \sum_(0 <= c < 2) (H 0%N c + H 1%N c) * chain (behead cs) [:: j; 0]%N c 0%N.
have dE i j : (i < 2)%N -> (j < 2)%N -> get a [:: i; j; 0]%N = G i * Z j.
  move=> hi hj; rewrite gy ?st3 /= ?hi ?hj // /Z; have rk0 := rk 0%N erefl; rewrite /drm_cols rE /= in rk0.
  move: gP rk0 dm; case: (cs) => [|K Ks] //= gP rk0 _.
  by rewrite rk0 big_distrr /=; apply: eq_big_nat => c /andP[_ hc]; rewrite gP // mulrA.
have h00 := dE 0%N 0%N erefl erefl; have h01 := dE 0%N 1%N erefl erefl; have h11 := dE 1%N 1%N erefl erefl.
move: h00 h01 h11; rewrite !ga //= => h00 h01 h11.
have n0 : G 0%N != 0 by apply/eqP => z; move: h00; rewrite z mul0r => /eqP; rewrite oner_eq0.
have n1 : Z 1%N != 0 by apply/eqP => z; move: h11; rewrite z mulr0 => /eqP; rewrite oner_eq0.
by move: h01 => /esym/eqP; rewrite mulf_eq0 (negbTE n0) (negbTE n1).
Qed.
End Dense.

(* ---- a concrete case: draws from {0, ..., n-1}, one thread, the 2 x 3 x 2 train of Prop_LinEx.v ---- *)
Section Ex.
Variable R : rcfType.
Variable n : nat.
Hypothesis n0 : (0 < n)%N.
Lemma uniform_draws (I : finType) : distributions (fun (_ : I) (_ : 'I_n) => n%:R^-1 : R) n%:R^-1.
Proof.
move=> i; split=> [t|]; first by rewrite lexx invr_ge0 ler0n.
by rewrite sumr_const card_ord -[_ *+ n]mulr_natr mulVf // pnatr_eq0 -lt0n.
Qed.
Lemma uniform_values (I : finType) (i : I) : injective (fun t : 'I_n => (nat_of_ord t)%:R : R).
Proof. by move=> t u /eqP; rewrite eqr_nat => /eqP/ord_inj. Qed.

Let st (s : N) (mu : nat) : N := N.add (N.mul s 10) (N.of_nat mu).
Let rs (s : N) (d : nat) : N := N.add s 1.
Notation X := (TT (ex_cs R)).
Notation words := (both_words st (tshape X) 5 (rs 5 3)).
Notation pos := (position words 1 27).

Lemma ex_rank a mu : to_numpy X = Ok a -> (mu < 2)%N -> (\rank (unfolding [:: 2; 3; 2]%N (get a) mu) <= 2)%N.
Proof.
move=> _; case: mu => [|[|mu]] // _; first exact: leq_trans (rank_leq_row _) _.
exact: leq_trans (rank_leq_col _) _.
Qed.

(* with ranks 2 and 3 the sketch is exact up to an event of probability at most 12/n *)
Example C55_nonvacuous (to_normal : N -> R) stream offset qr a : to_numpy X = Ok a ->
  exists Bad : pred {ffun pos -> 'I_n}, prob (fun _ _ => n%:R^-1 : R) Bad <= 12%:R / n%:R /\
  forall w, ~~ Bad w ->
   exists2 st', stream_sketch to_normal (drm_cores (gen_of (drawn_values (fun _ t => (nat_of_ord t)%:R : R) w)) 1 st qr) stream offset rs (@lstsq0 R) (@qr0 R)
      X (RInt 2) (RInt 3) (Some 5%num) None None None None (fun=> 0%num) = Ok st' &
    or_linalg (stt_to_tt (@lstsq0 R) st') (fun cs => to_numpy (TT cs) = Ok a).
Proof.
move=> ea.
have uw : uniq words by vm_compute.
have p0 : 0 <= n%:R^-1 :> R by rewrite invr_ge0 ler0n.
have [|||Bad [hP hB]] := @C55_stream_sketch R to_normal stream offset rs (@lstsq0 R) (@qr0 R) (@lstsq0P R) 1 27 st qr erefl [finType of 'I_n] n%:R^-1
  X a (RInt 2) (RInt 3) [:: 2; 2]%N [:: 3; 3]%N (Some 5%num) (fun=> 0%num) false (fun _ _ => n%:R^-1) (fun _ t => (nat_of_ord t)%:R)
  p0 (@uniform_draws _) (@uniform_values _) uw _ erefl ea erefl erefl erefl erefl erefl erefl erefl.
- by case=> [|[|[|mu]]].
- by case=> [|[|mu]].
- move=> mu hm; apply: leq_trans (ex_rank ea hm) _; by case: mu hm => [|[|mu]].
exists Bad; split=> //; apply: le_trans hP _; apply: ler_wpmul2r => //.
rewrite ler_nat; have : (\sum_(0 <= mu < 2) \rank (unfolding (tshape X) (get a) mu) <= 4)%N.
  rewrite !big_nat_recr //= big_geq //; have := ex_rank ea (erefl : 0 < 2)%N; have := ex_rank ea (erefl : 1 < 2)%N.
  move: (\rank _) (\rank _) => u v; clear; lia.
rewrite -[size (tshape X)]/3%N /=; move: (\sum_(0 <= mu < 2) _)%N => u; clear; lia.
Qed.
End Ex.
Print Assumptions C55_stream_sketch.
Print Assumptions C55_orthogonal_sketch.
Print Assumptions C55_hmt_sketch.
Print Assumptions C55_dense_refuted.
