(* general_sketch for the methods orthogonal and hmt; orthogonal projections. *)
From Coq Require Import String Ascii NArith.
From mathcomp Require Import all_ssreflect all_algebra.
From mathcomp Require Import zify.
From Verif Require Import Py Nd NdThy Ein Utils Tensor Spec LinSpec ChainThy TensorThy TensorThy2 SweepThy NormThy RoundThy Sketch SkSpec SkThy1 SkThy2 SkThy4 SkThy5 SkThy6 SkThy7 SkThy8 SkThy10 SkThy12 RecSpec RecThy1 RecThy2 RecThy3 RecThy4 RecThy5 RecThy6.
Set Implicit Arguments. Unset Strict Implicit. Unset Printing Implicit Defensive.
Import GRing.Theory Num.Theory.
Local Open Scope ring_scope.

Section Proj.
Variable R : rcfType.
Implicit Types (s : seq nat) (x y : seq nat -> R).

Lemma split_last s : (0 < size s)%N -> s = rcons (take (size s).-1 s) (nth 0%N s (size s).-1).
Proof. by move=> h; rewrite -take_nth ?prednK ?take_size //; clear -h; lia. Qed.

Lemma proj_best s x y r T (h : nat -> nat -> R) : (0 < size s)%N -> proj_of s x y r T ->
  let z i := \sum_(0 <= c < r) T (take (size s).-1 i) c * h c (last 0%N i) in
  sum_idx s (fun i => (x i - z i) ^+ 2) = sum_idx s (fun i => (x i - y i) ^+ 2) + sum_idx s (fun i => (y i - z i) ^+ 2).
Proof.
move=> s0 [oT yE] z; rewrite -sum_idxD (split_last s0); set s' := take _ s in oT yE *; set n := nth _ _ _ in yE *.
rewrite !sum_idx_rcons; have sz : size s' = (size s).-1 by rewrite size_takel // leq_pred.
pose F k c := sum_idx s' (fun i' => T i' c * x (rcons i' k)).
pose e i k := x (rcons i k) - y (rcons i k).
have zE i k : inb s' i -> z (rcons i k) = \sum_(0 <= c < r) T i c * h c k.
  by move=> hi; rewrite /z last_rcons -cats1 take_size_cat // (inb_size hi).
have orth k c : (k < n)%N -> (c < r)%N -> sum_idx s' (fun i => T i c * e i k) = 0.
  move=> hk hc; rewrite (eq_sum_idx (g := fun i => T i c * x (rcons i k) + (- 1) * (T i c * y (rcons i k)))); last first.
    by move=> i _; rewrite /e mulrBr mulN1r.
  rewrite sum_idxD sum_idxZ mulN1r; apply/eqP; rewrite subr_eq0; apply/eqP.
  rewrite [RHS](eq_sum_idx (g := fun i => \sum_(0 <= c' < r) (T i c * T i c') * F k c')); last first.
    by move=> i hi; rewrite yE // big_distrr; apply: eq_bigr => c' _ /=; rewrite mulrA.
  rewrite sum_idx_big -/(F k c) -[LHS](@sum_nat_delta R r c (fun c' => F k c')) //.
  by apply: eq_big_nat => c' hc'; rewrite sum_idxZr oT // eq_sym.
apply/eqP; rewrite -subr_eq0; apply/eqP.
have -> : forall (f g : seq nat -> R), sum_idx s' f - sum_idx s' g = sum_idx s' (fun i => f i - g i).
  by move=> f g0; rewrite -mulN1r -sum_idxZ -sum_idxD; apply: eq_sum_idx => i _; rewrite mulN1r.
rewrite (eq_sum_idx (g := fun i => \sum_(0 <= k < n) (\sum_(0 <= c < r) 2%:R * ((T i c * e i k) * (F k c - h c k))))).
  rewrite sum_idx_big big_nat big1 // => k hk; rewrite sum_idx_big big_nat big1 // => c hc.
  by rewrite sum_idxZ sum_idxZr orth // mul0r mulr0.
move=> i hi; rewrite -sumrB; apply: eq_big_nat => k hk.
have -> : \sum_(0 <= c < r) 2%:R * (T i c * e i k * (F k c - h c k)) = 2%:R * (e i k * (y (rcons i k) - z (rcons i k))).
  rewrite -big_distrr /=; congr (_ * _); rewrite yE // zE // -sumrB big_distrr /=; apply: eq_bigr => c _.
  by rewrite -mulrBr [T i c * e i k]mulrC -mulrA.
rewrite /e; set a := x _; set b := y _; set t := z _.
have -> : a - t = (a - b) + (b - t) by rewrite addrA subrK.
by rewrite sqrrD [X in X - _]addrAC [X in X - _]addrC addrK mulr_natl.
Qed.
End Proj.

Section Gen.
Variable R : rcfType.
Notation arr := (nd R).
Notation C0 := (C0 R).
Variable to_normal : N -> R.
Variable lstsq : arr -> arr -> res arr.
Variable qr : arr -> res (arr * arr).
Hypothesis hl : lstsq_contract lstsq.
Hypothesis qc : qr_contract qr.
Notation gs := (general_sketch to_normal lstsq qr).
Notation gfam := (gfam to_normal).
Implicit Types (X : tensor R) (D E : drm R).

Definition right_drm_ok E s : Prop := [/\ d_shape E = s, d_transpose E = true & drm_good E].

Lemma sketch_rightO o X E : let s := tshape X in let d := size s in
  wf_gen false X -> (1 < d)%N -> right_drm_ok E s -> fits E d.-1 X -> order_ok o X ->
  exists2 l, sketch_all to_normal E X = Ok l & size l = d.-1 /\
  forall mu, (mu < d.-1)%N -> rsk mu.+1 (drm_cols E (d - mu.+2)) (fun _ => gfam o E s mu) X (Some (nth (Leaf (Nd [::] [::])) l mu)).
Proof.
move=> s d w d1 [sE tE [vE rE]] fE oX; rewrite sE in vE rE.
have ag : leafprop (right_agree to_normal E (gfam o E s)) X.
  by case: o oX => oX; [apply: (right_ok_agree to_normal E oX w erefl) | apply: (all_dense_agree to_normal E oX w erefl)].
have d0 : (0 < d)%N by clear -d1; lia.
exact: (sketch_rightE w d0 sE tE vE fE ag).
Qed.

Lemma hmt_gsE o X E : let s := tshape X in let d := size s in
  wf_gen false X -> (1 < d)%N -> right_drm_ok E s -> fits E d.-1 X -> order_ok o X ->
  (forall mu, (mu < d)%N -> (0 < nth 0 s mu)%N) -> (forall mu, (mu < d.-1)%N -> (0 < nth 0 (rev (d_rank E)) mu)%N) ->
  left_fits s (rev (d_rank E)) ->
  or_linalg (gs X None E Hmt) (fun c => inv X (gfam o E s) (fun mu => drm_cols E (d - mu.+2)) (rev (d_rank E))
    (rep X (fun mu => drm_cols E (d - mu.+2)) (rev (d_rank E))) d (Psi_cores c)).
Proof.
move=> s d w d1 hE fE oX hs hr fe; have [rc erc [src hR]] := sketch_rightO w d1 hE fE oX.
rewrite /general_sketch erc; cbn [bind].
have rE : size (d_rank E) = d.-1 by case: hE => sE _ [_]; rewrite sE.
apply: or_bind; last by move=> Ps hP; exact: hP.
apply: (@sweepE R to_normal lstsq qr X (gfam o E s) (fun mu => drm_cols E (d - mu.+2)) rc [::] (rev (d_rank E)) (d_rank E) [::] Hmt (rep X (fun mu => drm_cols E (d - mu.+2)) (rev (d_rank E))) w d1 src _ rE _ hR hr) => //.
- by rewrite size_rev.
- by move=> mu hm; rewrite right_cols.
move=> mu cs hm; rewrite /mstep /mpost.
have e : drm_cols E (d - mu.+2) = nth 0%N (rev (d_rank E)) mu by rewrite right_cols.
apply: or_imp (@hmt_stepE R lstsq qr qc _ (at_left (nth 0%N (rev (d_rank E))) 1%N mu) (nth 0%N s mu) (nth 0%N (rev (d_rank E)) mu) _ _ _) _.
- exact: nwf_tab.
- by rewrite /Psi_arr /= /at_right hm e.
- by have := fe mu hm; case: (mu).
by move=> Q [h1 h2 h3 h4]; split=> //; rewrite /rep -/s -/d e.
Qed.

Lemma orth_gsE o X D E : let s := tshape X in let d := size s in
  wf_gen false X -> (1 < d)%N -> pair_ok D E s -> fits D d.-1 X -> fits E d.-1 X -> order_ok o X ->
  (forall mu, (mu < d)%N -> (0 < nth 0 s mu)%N) -> (forall mu, (mu < d.-1)%N -> (0 < nth 0 (d_rank D) mu)%N) ->
  (forall mu, (mu < d.-1)%N -> (0 < drm_cols E (d - mu.+2))%N) -> left_fits s (d_rank D) ->
  exists2 c0, gs X (Some D) E Streaming = Ok c0 &
  or_linalg (gs X (Some D) E Orthogonal) (fun c => Omega_mats c = Omega_mats c0 /\ inv X (gfam o E s) (fun mu => drm_cols E (d - mu.+2)) (d_rank D)
    (fun mu P Q => orth_spec (nth C0 (Omega_mats c0) mu) P Q (at_left (nth 0%N (d_rank D)) 1%N mu) (nth 0%N s mu) (drm_cols E (d - mu.+2)) (nth 0%N (d_rank D) mu))
    d (Psi_cores c)).
Proof.
move=> s d w d1 hp fD fE oX hs hl' hr fe.
have [c0 ec0 hc0] := gs_isk to_normal lstsq qr w d1 hp fD fE oX; exists c0 => //.
have hE : right_drm_ok E s by case: hp => ? ? [? ?] ? ?; split.
have [rc erc [src hR]] := sketch_rightO w d1 hE fE oX.
have [sD sE [tD tE] [vD rD] [vE rE]] := hp; rewrite sD in vD rD; rewrite sE in vE rE.
have d0 : (d.-1 < d)%N by clear -d1; lia.
have [lc elc [slc hL]] := sketch_leftE to_normal w d0 sD tD vD fD.
have [||Os eOs [sO hO]] := omegasE w src slc hR hL rD rE; [by move=> mu hm; rewrite right_cols|by []|].
move: ec0; rewrite /general_sketch [sketch_all to_normal D X]elc erc [bind (Ok _) _]/= [bind (Ok _) _]/= eOs.
rewrite [bind (Ok _) _]/=; case: (foldM _ _ _) => //= Ps0 [ec0].
have eO : Omega_mats c0 = Os by rewrite -ec0.
apply: (@or_bind _ _ _ _ (inv X (gfam o E s) (fun mu => drm_cols E (d - mu.+2)) (d_rank D)
    (fun mu P Q => orth_spec (nth C0 (Omega_mats c0) mu) P Q (at_left (nth 0%N (d_rank D)) 1%N mu) (nth 0%N s mu) (drm_cols E (d - mu.+2)) (nth 0%N (d_rank D) mu)) d)); last first.
  by move=> Ps hP; split=> //; rewrite eO.
apply: (@sweepE R to_normal lstsq qr X (gfam o E s) (fun mu => drm_cols E (d - mu.+2)) rc lc (d_rank D) (d_rank E) Os Orthogonal _ w d1 src rD rE _ hR hl') => //.
  by move=> mu hm; rewrite right_cols.
move=> mu cs hm; rewrite /mstep /mpost (pygetE C0) ?sO // [bind (Ok _) _]/= hO //.
have hmd : (mu < d)%N by move: hm; rewrite -/s -/d => hm; clear -hm; lia.
apply: or_imp (@orth_stepS R lstsq qr hl qc _ _ (at_left (nth 0%N (d_rank D)) 1%N mu) (nth 0%N s mu) (drm_cols E (d - mu.+2)) (nth 0%N (d_rank D) mu) _ _ _ _ _ _ _ _ _) _.
- exact: nwf_tab.
- by rewrite /Psi_arr /= /at_right hm.
- exact: nwf_tab.
- by [].
- by case: (mu) hm => //= nu; rewrite -/s -/d => hn; apply: hl'; clear -hn; lia.
- exact: hs.
- exact: hr.
- exact: hl'.
- by have := fe mu hm; case: (mu).
by move=> Q [h1 h2 h3 h4]; split=> //; rewrite eO hO.
Qed.

(* consequences, for either method *)
Lemma inv_tt X g rr lrank cor cs : (1 < size (tshape X))%N -> size lrank = (size (tshape X)).-1 ->
  inv X g rr lrank cor (size (tshape X)) cs ->
  [/\ wf_tt cs, tshape (TT cs) = tshape X, tt_rank cs = lrank & all_but_last (@left_orth R) cs].
Proof.
move=> d1 sl h; have lk := swp_links h; have dm := swp_dims h; have [sc _] := h; split=> //.
- by rewrite /wf_tt lk andbT; case: (cs) sc d1 => // <-.
- apply: (@eq_from_nth _ 0%N); rewrite size_map size_behead sc ?sl // => mu hm.
  rewrite (nth_map C0) ?size_behead ?sc // nth_behead -(swp_rank h) //.
  have [|_ _ -> _] := links_nth lk (_ : mu < size cs)%N; first by rewrite sc; clear -hm; lia.
  rewrite (nth_map C0) // sc; clear -hm; lia.
- by move=> mu; rewrite sc => hm; apply: (swp_orth h); clear -hm; lia.
Qed.

Lemma inv_proj X g rr lrank cor cs : (1 < size (tshape X))%N -> 
  inv X g rr lrank cor (size (tshape X)) cs ->
  proj_of (tshape X) (den X) (den (TT cs)) (nth 0%N lrank (size (tshape X)).-2) (fun i c => chain (take (size (tshape X)).-1 cs) i 0 c).
Proof.
move=> d1 h; have dm := swp_dims h; have [sc _] := h; set d := size (tshape X) in d1 sc *.
have hd : (d.-1 < d)%N by clear -d1; lia.
split; last by move=> i k hi hk; rewrite /= (swp_proj d1 h).
have L := rec_links (swp_links h) dm (swp_rank h) hd.
have el : at_left (nth 0%N lrank) 1%N d.-1 = nth 0%N lrank d.-2 by case: (d) d1 => [|[|n]].
rewrite el in L; move=> b c hb hc.
have := @left_isom R _ _ L _ b c hb hc.
rewrite /modes map_take dm => <-; last first.
  have st : size (take d.-1 cs) = d.-1 by rewrite size_takel // sc ltnW.
  move=> C /(nthP C0)[mu]; rewrite st => hm <-; rewrite nth_take //.
  exact: (swp_orth h).
by rewrite sum_idxE.
Qed.
End Gen.
