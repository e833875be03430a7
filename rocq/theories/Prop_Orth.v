(* Properties C29, C30, C31: orthogonal_sketch and hmt_sketch.
   R is any real closed field; lstsq and qr are any functions meeting the contracts of LinSpec.v
   and RecSpec.v (they may raise LinAlgError).  The random generators are arbitrary. *)
From Coq Require Import String Ascii NArith.
From mathcomp Require Import all_ssreflect all_algebra.
From mathcomp Require Import zify.
From Verif Require Import Py Nd NdThy Ein Utils Tensor Hash Sketch Spec LinSpec ChainThy TensorThy TensorThy2 TensorThy4 TrimThy SweepThy RoundThy SkSpec SkThy1 SkThy10 SkThy12 SkThy13 SkThy14 RecSpec RecThy1 RecThy2 RecThy3 RecThy4 RecThy5 RecThy6 RecThy7 Prop_Sketch Prop_Recovery.
Set Implicit Arguments. Unset Strict Implicit. Unset Printing Implicit Defensive.
Import GRing.Theory Num.Theory.
Local Open Scope ring_scope.

Section Theorems.
Variable R : rcfType.
Variable to_normal : N -> R.
Variable tt_random : seq nat -> seq nat -> N -> seq (nd R).
Variable stream : N -> nat -> R.
Variable offset : N -> nat -> N.
Variable right_seed_of : N -> nat -> N.
Variable lstsq : nd R -> nd R -> res (nd R).
Variable qr_econ : nd R -> res (nd R * nd R).
Hypothesis lstsq_ok : lstsq_contract lstsq.
Hypothesis qr_ok : qr_contract qr_econ.
Notation gs := (general_sketch to_normal lstsq qr_econ).
Notation orthogonal_sketch := (orthogonal_sketch to_normal tt_random stream offset right_seed_of lstsq qr_econ).
Notation hmt_sketch := (hmt_sketch to_normal tt_random stream offset lstsq qr_econ).
Notation C0 := (C0 R).
Implicit Types (X Y : tensor R) (D E : drm R) (a : nd R).

(* a right DRM for tensors of shape s *)
Definition right_ok_drm E s : Prop := [/\ d_shape E = s, d_transpose E = true & drm_good E].

(* the result: a train of the shape of X and rank rk, left-orthonormal but for the last core,
   which represents the orthogonal projection of the array a onto the span of orthonormal
   columns; hence |a - y|^2 = |a|^2 - |y|^2 and y is the best approximation with these columns *)
Definition orth_result (s rk : seq nat) a (cs : seq (nd R)) : Prop :=
  [/\ wf_tt cs, tshape (TT cs) = s, tt_rank cs = rk, all_but_last (@left_orth R) cs &
   exists2 y, to_numpy (TT cs) = Ok y & exists T,
     [/\ proj_of s (get a) (get y) (nth 0%N rk (size s).-2) T,
         sum_idx s (fun i => (get a i - get y i) ^+ 2) = sum_idx s (fun i => get a i ^+ 2) - sum_idx s (fun i => get y i ^+ 2) &
         forall h : nat -> nat -> R,
           sum_idx s (fun i => (get a i - get y i) ^+ 2) <=
           sum_idx s (fun i => (get a i - \sum_(0 <= c < nth 0%N rk (size s).-2) T (take (size s).-1 i) c * h c (last 0%N i)) ^+ 2)]].

Lemma inv_result X a g rr rk cor cs : (1 < size (tshape X))%N -> size rk = (size (tshape X)).-1 ->
  wf X -> to_numpy X = Ok a -> inv X g rr rk cor (size (tshape X)) cs -> orth_result (tshape X) rk a cs.
Proof.
move=> d1 sr w ea h; have [wt st rt ot] := inv_tt d1 sr h; split=> //.
have [sa da] := den_numpy w ea.
have [|y ey [wy sy gy]] := @to_numpyE R (TT cs); first exact: wt.
exists y => //; rewrite st in sy gy; set s := tshape X in d1 sr sy gy da st *.
have s0 : (0 < size s)%N by clear -d1; lia.
have pj : proj_of s (get a) (get y) (nth 0%N rk (size s).-2) (fun i c => chain (take (size s).-1 cs) i 0 c).
  have [p1 p2] := inv_proj d1 h; split=> // i k hi hk.
  have hik j : inb (take (size s).-1 s) j -> inb s (rcons j k) by rewrite [in inb s _](split_last s0) inb_rc hk andbT.
  rewrite gy; last exact: hik.
  rewrite p2 //; apply: eq_bigr => c _; congr (_ * _); apply: eq_sum_idx => j hj; rewrite da //; exact: hik.
exists (fun i c => chain (take (size s).-1 cs) i 0 c); split=> //.
- have := proj_best (fun _ _ => 0) s0 pj => /= e.
  rewrite [in RHS](eq_sum_idx (f := fun i => get a i ^+ 2) (g := fun i => (get a i - \sum_(0 <= c < nth 0%N rk (size s).-2) chain (take (size s).-1 cs) (take (size s).-1 i) 0 c * 0) ^+ 2)); last first.
    by move=> i _; rewrite big1 ?subr0 // => c _; rewrite mulr0.
  rewrite e -addrA [X in _ + X](_ : _ = 0) ?addr0 //; apply/eqP; rewrite subr_eq0; apply/eqP; apply: eq_sum_idx => i _.
  by rewrite big1 ?subr0 // => c _; rewrite mulr0.
- move=> h0; rewrite (proj_best h0 s0 pj) ler_addl.
  by apply: NormThy.sum_idx_ge0 => i; apply: sqr_ge0.
Qed.

(* ---- C30, C31 for hmt_sketch ---- *)
Lemma hmt_gs o X E : let s := tshape X in let d := size s in
  wf X -> (1 < d)%N -> right_ok_drm E s -> fits E d.-1 X -> order_ok o X ->
  all (fun n => 0 < n)%N s -> all (fun n => 0 < n)%N (d_rank E) -> left_fits s (rev (d_rank E)) ->
  or_linalg (gs X None E Hmt) (fun c => inv X (gfam to_normal o E s) (fun mu => drm_cols E (d - mu.+2)) (rev (d_rank E))
    (rep X (fun mu => drm_cols E (d - mu.+2)) (rev (d_rank E))) d (Psi_cores c)).
Proof.
move=> s d w d1 hE fE oX hs hr fe; have rE : size (d_rank E) = d.-1 by case: hE => sE _ [_]; rewrite sE.
apply: (@hmt_gsE R to_normal lstsq qr_econ qr_ok o X E (wf_gen_rep w) d1 hE fE oX _ _ fe).
  by move=> mu hm; apply: rank_all hm.
by move=> mu hm; apply: (@rank_all (rev (d_rank E)) d.-1) => //; rewrite ?size_rev ?all_rev.
Qed.

Theorem C31_hmt o X a E : let s := tshape X in let d := size s in
  wf X -> to_numpy X = Ok a -> (1 < d)%N -> right_ok_drm E s -> fits E d.-1 X -> order_ok o X ->
  all (fun n => 0 < n)%N s -> all (fun n => 0 < n)%N (d_rank E) -> left_fits s (rev (d_rank E)) ->
  or_linalg (gs X None E Hmt) (fun c => orth_result s (rev (d_rank E)) a (Psi_cores c)).
Proof.
move=> s d w ea d1 hE fE oX hs hr fe; have rE : size (d_rank E) = d.-1 by case: hE => sE _ [_]; rewrite sE.
apply: or_imp (hmt_gs w d1 hE fE oX hs hr fe) _ => c; apply: inv_result => //; by rewrite size_rev.
Qed.

(* every unfolding of X keeps its rank when multiplied by the matrix of the right DRM *)
Definition right_rank_condition o E (s : seq nat) (x : seq nat -> R) : Prop :=
  forall mu, (mu < (size s).-1)%N ->
  \rank (unfolding s x mu *m fmat (drop mu.+1 s) (gfam to_normal o E s mu) (drm_cols E (size s - mu.+2))) = \rank (unfolding s x mu).

Lemma choose_range n (T : Type) (t0 : T) (Q : nat -> T -> Prop) : (forall mu, (mu < n)%N -> exists M, Q mu M) ->
  exists F, forall mu, (mu < n)%N -> Q mu (F mu).
Proof.
elim: n => [|n IH] H; first by exists (fun _ => t0).
have [|F hF] := IH; first by move=> mu hm; apply: H; apply: ltnW.
have [G hG] := H n (ltnSn n); exists (fun mu => if mu == n then G else F mu) => mu.
by rewrite ltnS leq_eqVlt; case: eqP => [-> //|_ /= hm]; apply: hF.
Qed.

Lemma unfolding_ext (s : seq nat) (x y : seq nat -> R) mu : (forall i, inb s i -> x i = y i) -> unfolding s x mu = unfolding s y mu.
Proof.
move=> e; apply/matrixP=> p q; rewrite !mxE; apply: e.
by rewrite -[X in inb X _](cat_take_drop mu.+1) inb_cat ?inb_unravel //; rewrite (inb_size (inb_unravel _)).
Qed.

Lemma exact_fin X a (cs : seq (nd R)) : wf X -> to_numpy X = Ok a -> wf_tt cs -> tshape (TT cs) = tshape X ->
  (forall i, inb (tshape X) i -> chain cs i 0 0 = den X i) -> to_numpy (TT cs) = Ok a.
Proof.
move=> w ea wt st h; have [sa da] := den_numpy w ea.
have [b eb [wa _ _]] := to_numpyE w; move: eb; rewrite ea => -[eb]; rewrite -{b}eb in wa.
have [|y -> [wy sy gy]] := @to_numpyE R (TT cs); first exact: wt.
rewrite st in sy gy; congr Ok; apply: nd_ext => //; rewrite sy ?sa // => i hi.
by rewrite gy //= h // da.
Qed.

Theorem C30_hmt_exact o X a E : let s := tshape X in let d := size s in
  wf X -> to_numpy X = Ok a -> (1 < d)%N -> right_ok_drm E s -> fits E d.-1 X -> order_ok o X ->
  all (fun n => 0 < n)%N s -> all (fun n => 0 < n)%N (d_rank E) -> left_fits s (rev (d_rank E)) ->
  right_rank_condition o E s (get a) ->
  or_linalg (gs X None E Hmt) (fun c => to_numpy (TT (Psi_cores c)) = Ok a).
Proof.
move=> s d w ea d1 hE fE oX hs hr fe rc; have rE : size (d_rank E) = d.-1 by case: hE => sE _ [_]; rewrite sE.
have [sa da] := den_numpy w ea.
apply: or_imp (hmt_gs w d1 hE fE oX hs hr fe) _ => c h.
have [|wt st _ _] := inv_tt d1 _ h; first by rewrite size_rev.
apply: (exact_fin w ea wt st).
have [|M hM] := @choose_range d.-1 (nat -> seq nat -> R) (fun _ _ => 0) (fun mu M => forall i j, inb (take mu.+1 s) i -> inb (drop mu.+1 s) j ->
   den X (i ++ j) = \sum_(0 <= b < drm_cols E (d - mu.+2)) sum_idx (drop mu.+1 s) (fun j' => den X (i ++ j') * gfam to_normal o E s mu j' b) * M b j).
  by move=> mu hm; apply: range_of; rewrite (unfolding_ext mu da); apply: rc.
apply: (swp_exact d1 h (M := M)) => [mu hm|mu i j hm]; [exact: (swp_cor h hm)|exact: hM].
Qed.

(* ---- C29, C31 for orthogonal_sketch ---- *)
Lemma orth_gs o X D E : let s := tshape X in let d := size s in
  wf X -> (1 < d)%N -> pair_ok D E s -> fits D d.-1 X -> fits E d.-1 X -> order_ok o X ->
  all (fun n => 0 < n)%N s -> all (fun n => 0 < n)%N (d_rank D) -> all (fun n => 0 < n)%N (d_rank E) ->
  left_fits s (d_rank D) ->
  exists2 c0, gs X (Some D) E Streaming = Ok c0 &
  or_linalg (gs X (Some D) E Orthogonal) (fun c => Omega_mats c = Omega_mats c0 /\ inv X (gfam to_normal o E s) (fun mu => drm_cols E (d - mu.+2)) (d_rank D)
    (fun mu P Q => orth_spec (nth C0 (Omega_mats c0) mu) P Q (at_left (nth 0%N (d_rank D)) 1%N mu) (nth 0%N s mu) (drm_cols E (d - mu.+2)) (nth 0%N (d_rank D) mu))
    d (Psi_cores c)).
Proof.
move=> s d w d1 hp fD fE oX hs hl hr fe.
have [sD sE _ [_ rD] [_ rE]] := hp; rewrite sD in rD; rewrite sE in rE.
apply: (@orth_gsE R to_normal lstsq qr_econ lstsq_ok qr_ok o X D E (wf_gen_rep w) d1 hp fD fE oX _ _ _ fe).
- by move=> mu hm; apply: rank_all hm.
- by move=> mu hm; apply: (rank_all rD).
move=> mu hm; apply: (rank_all rE) => //; have {}hm : (mu < d.-1)%N := hm; change (size (tshape X)) with d.
by clear -hm; lia.
Qed.

Theorem C31_orthogonal o X a D E : let s := tshape X in let d := size s in
  wf X -> to_numpy X = Ok a -> (1 < d)%N -> pair_ok D E s -> fits D d.-1 X -> fits E d.-1 X -> order_ok o X ->
  all (fun n => 0 < n)%N s -> all (fun n => 0 < n)%N (d_rank D) -> all (fun n => 0 < n)%N (d_rank E) ->
  left_fits s (d_rank D) ->
  or_linalg (gs X (Some D) E Orthogonal) (fun c => orth_result s (d_rank D) a (Psi_cores c)).
Proof.
move=> s d w ea d1 hp fD fE oX hs hl hr fe; have [c0 _ h] := orth_gs w d1 hp fD fE oX hs hl hr fe.
have [sD _ _ [_ rD] _] := hp; rewrite sD in rD.
by apply: or_imp h _ => c [_]; apply: inv_result.
Qed.

(* the rank condition is that of C28: every Omega of the streaming sketch with the same DRMs
   has the rank of the unfolding; Omega is also computed by the orthogonal sketch *)
Theorem C29_orthogonal_exact o X a D E c0 : let s := tshape X in let d := size s in
  wf X -> to_numpy X = Ok a -> (1 < d)%N -> pair_ok D E s -> fits D d.-1 X -> fits E d.-1 X -> order_ok o X ->
  all (fun n => 0 < n)%N s -> all (fun n => 0 < n)%N (d_rank D) -> all (fun n => 0 < n)%N (d_rank E) ->
  left_fits s (d_rank D) ->
  gs X (Some D) E Streaming = Ok c0 -> rank_condition D E s (get a) c0 ->
  or_linalg (gs X (Some D) E Orthogonal) (fun c => Omega_mats c = Omega_mats c0 /\ to_numpy (TT (Psi_cores c)) = Ok a).
Proof.
move=> s d w ea d1 hp fD fE oX hs hl hr fe ec0 rc; have [c1 ec1 h] := orth_gs w d1 hp fD fE oX hs hl hr fe.
move: ec1; rewrite ec0 => -[ec1]; rewrite -{c1}ec1 in h.
have [sD _ _ [_ rD] _] := hp; rewrite sD in rD; have [sa da] := den_numpy w ea.
apply: or_imp h _ => c1 [eO h]; split=> //.
have [wt st _ _] := inv_tt d1 rD h; apply: (exact_fin w ea wt st).
have [c2 ec2 hc] := gs_isk to_normal lstsq qr_econ (wf_gen_rep w) d1 hp fD fE oX; move: ec2; rewrite ec0 => -[ec2].
rewrite -{c2}ec2 in hc.
have [|M [N [hM hN]]] := rank_factors hc.
  by move=> mu hm; rewrite (unfolding_ext mu da); apply: rc.
apply: (swp_exact d1 h (M := M)) => // mu hm; have hmd : (mu < size (tshape X))%N by clear -hm; lia.
refine (orth_spec_exact (swp_cor h hm) (N := fun u k c => sum_idx (take mu (tshape X)) (fun i => at_left (fun mu i c => chain (take mu.+1 (Psi_cores c1)) i 0 c) (@one_fun R) mu i u * N mu (rcons i k) c)) _) => u k b ha hk hb.
rewrite (swp_psi h hm ha hk hb) (psi_omegaR _ (gfam to_normal o E (tshape X) mu) u b hmd hk (fun i j => hN mu i j hm)).
by have [_ _ _ hO] := hc; have [_ _ gO] := hO mu hm; apply: eq_big_nat => e he; rewrite gO.
Qed.

(* ---- the entry points ---- *)
Lemma trim_left_fits (s rk : seq nat) : all (fun n => 0 < n)%N s -> all (fun n => 0 < n)%N rk -> (0 < size s)%N ->
  size rk = (size s).-1 -> (size s <= 102)%N ->
  [/\ left_fits s (trim_ranks s rk), all (fun n => 0 < n)%N (trim_ranks s rk) & size (trim_ranks s rk) = (size s).-1].
Proof.
move=> hs hr s0 sr h102; have [fe _ _ _] := trim_main hs hr s0 sr h102.
have [s1 p1 _ _] := trim_bounds hs hr s0 sr; rewrite s1 sr; split=> // mu hm.
have [st h] := fe; have [|h1 _] := h mu; first by clear -hm; lia.
move: h1; rewrite /= nth_cat st hm => h1; apply: leq_trans h1 _.
case: mu hm => [|mu] hm //=; rewrite nth_cat st; case: ifP => //; clear -hm; lia.
Qed.

(* hmt_sketch(X, rank, seed) with the default TensorTrainDRM: for every tensor, every positive
   rank and seed; E is the DRM it makes *)
Theorem C30_hmt_sketch_default X a rank rk seed ent : let s := tshape X in let d := size s in
  tt_random_ok tt_random ->
  wf X -> to_numpy X = Ok a -> right_ok X -> (1 < d <= 102)%N -> all (fun n => 0 < n)%N s ->
  process_tt_rank rank s false = Ok rk -> all (fun n => 0 < n)%N rk ->
  exists2 E, made tt_random stream offset true s (trim_ranks s rk) E &
  or_linalg (hmt_sketch X rank seed None None false ent) (orth_result s (trim_ranks s rk) a) /\
  (right_rank_condition true E s (get a) ->
   or_linalg (hmt_sketch X rank seed None None false ent) (fun cs => to_numpy (TT cs) = Ok a)).
Proof.
move=> s d hr w ea rX /andP[d1 d102] hs hp hk; have s0 : (0 < size s)%N by rewrite -/d; clear -d1; lia.
have [_ sk] := SkThy9.process_size hp erefl.
have [fe pk st] := trim_left_fits hs hk s0 sk d102.
set sd := if seed is Some s0 then s0 else ent 0%N.
have aa : new_args TensorTrainDRM (trim_ranks s rk) (Some sd) by split.
have [E [eE [cE sE tE _] [_ rE _ _ _] gE]] := SkThy9.drm_newE stream offset hr ent true (process_rtuple s0 st) aa.
have mE : made tt_random stream offset true s (trim_ranks s rk) E.
  by exists TensorTrainDRM, ent, (RTuple (trim_ranks s rk)), (Some sd); split=> //; apply: process_rtuple.
exists E => //; have oE : right_ok_drm E s by [].
have fE : fits E d.-1 X by apply: (fits_tt hr X mE cE pk).
have eR : rev (d_rank E) = trim_ranks s rk by rewrite rE /SkThy9.flip revK.
have pE : all (fun n => 0 < n)%N (d_rank E) by rewrite -all_rev eR.
have call : hmt_sketch X rank seed None None false ent = do c <- gs X None E Hmt; Ok (Psi_cores c).
  by rewrite /Sketch.hmt_sketch (process_trimE true hp); cbn [bind]; rewrite -/s -/sd eE.
have lf : left_fits s (rev (d_rank E)) by rewrite eR.
rewrite call; split=> [|rc].
  apply: or_bind (@C31_hmt true X a E w ea d1 oE fE rX hs pE lf) _ => c; by rewrite eR.
by apply: or_bind (@C30_hmt_exact true X a E w ea d1 oE fE rX hs pE lf rc) _ => c.
Qed.

(* return_drm=True never works: whenever the sketch itself succeeds, NameError is raised *)
Theorem C30_return_drm_refuted X rank seed type given ent cs :
  hmt_sketch X rank seed type given false ent = Ok cs -> hmt_sketch X rank seed type given true ent = Err NameError.
Proof.
rewrite /Sketch.hmt_sketch; case: (match given with Some _ => _ | None => _ end) => //= E.
by case: (gs _ _ _ _).
Qed.

(* orthogonal_sketch(X, left_rank, right_rank, seed) with default DRMs *)
Theorem C29_orthogonal_sketch_default X a l r lk rk seed ent : let s := tshape X in let d := size s in
  tt_random_ok tt_random ->
  wf X -> to_numpy X = Ok a -> right_ok X -> (1 < d <= 102)%N -> all (fun n => 0 < n)%N s ->
  process_tt_rank l s false = Ok lk -> process_tt_rank r s false = Ok rk ->
  all (fun n => 0 < n)%N lk -> all (fun n => 0 < n)%N rk ->
  (forall mu, (mu < d.-1)%N -> (nth 0 lk mu < nth 0 rk mu)%N) ->
  exists D E c0, [/\ made tt_random stream offset false s (trim_ranks s lk) D, made tt_random stream offset true s rk E,
    gs X (Some D) E Streaming = Ok c0,
    or_linalg (orthogonal_sketch X l r seed None None None None ent) (orth_result s (trim_ranks s lk) a) &
    rank_condition D E s (get a) c0 ->
    or_linalg (orthogonal_sketch X l r seed None None None None ent) (fun cs => to_numpy (TT cs) = Ok a)].
Proof.
move=> s d hr w ea rX /andP[d1 d102] hs pl pr hl hR hb; have s0 : (0 < size s)%N by rewrite -/d; clear -d1; lia.
have [_ slk] := SkThy9.process_size pl erefl.
have [fe pk st] := trim_left_fits hs hl s0 slk d102.
have [||D [E [eDE [_ mD cD _] [_ mE cE _] [p1 p2]]]] := @make_newE R tt_random stream offset right_seed_of hr s l r lk rk seed None None ent true false d1 hs pl pr hl hR.
- by split.
- by split.
rewrite /trim_if in mD mE p1 p2; have [[sD tD gD rD] _] := made_good hr mD; have [[sE tE gE rE] _] := made_good hr mE.
have fD : fits D d.-1 X by apply: (fits_tt hr X mD cD p1).
have fE : fits E d.-1 X by apply: (fits_tt hr X mE cE p2).
have hp : pair_ok D E s by [].
have pD : all (fun n => 0 < n)%N (d_rank D) by rewrite rD.
have pE : all (fun n => 0 < n)%N (d_rank E) by rewrite rE /SkThy9.flip all_rev.
have lf : left_fits s (d_rank D) by rewrite rD.
have [c0 ec0 _] := gs_isk to_normal lstsq qr_econ (wf_gen_rep w) d1 hp fD fE (rX : order_ok true X).
have call : orthogonal_sketch X l r seed None None None None ent = do c <- gs X (Some D) E Orthogonal; Ok (Psi_cores c).
  have [b [e rb]] := rank_gtE d1 pr pl.
  by rewrite /Sketch.orthogonal_sketch e; case: rb => [_|[]//]; cbn [bind negb]; rewrite eDE.
exists D, E, c0; rewrite call; split=> // [|rc].
  apply: or_bind (@C31_orthogonal true X a D E w ea d1 hp fD fE rX hs pD pE lf) _ => c; by rewrite rD.
by apply: or_bind (@C29_orthogonal_exact true X a D E c0 w ea d1 hp fD fE rX hs pD pE lf ec0 rc) _ => c [].
Qed.
End Theorems.
Print Assumptions C31_hmt.
Print Assumptions C30_hmt_exact.
Print Assumptions C31_orthogonal.
Print Assumptions C29_orthogonal_exact.
Print Assumptions C30_hmt_sketch_default.
Print Assumptions C30_return_drm_refuted.
Print Assumptions C29_orthogonal_sketch_default.
