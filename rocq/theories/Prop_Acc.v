(* Property C54: how far the train computed by a sketch is from the tensor when recovery is not
   exact.  R is any real closed field; lstsq and qr are any functions meeting the contracts of
   LinSpec.v and RecSpec.v (they may raise LinAlgError).  The random generators are arbitrary:
   the bounds are deterministic and hold for every draw.
   rmat E s mu (lmat D s mu) is the matrix of the right (left) DRM at bond mu, [unfolding s x mu]
   the mu-th unfolding of the array. *)
From Coq Require Import String Ascii NArith.
From mathcomp Require Import all_ssreflect all_algebra.
From mathcomp Require Import zify.
From Verif Require Import Py Nd NdThy Ein Utils Tensor Hash Sketch Spec LinSpec ChainThy TensorThy TensorThy2 TensorThy4 TrimThy SweepThy RoundThy SkSpec SkThy1 SkThy10 SkThy12 SkThy13 SkThy14 RecSpec RecThy1 RecThy2 RecThy3 RecThy4 RecThy5 RecThy6 RecThy7 Prop_Sketch Prop_Recovery Prop_Orth AccThy AccSpec AccThy2 AccThy3 AccThy4.
Set Implicit Arguments. Unset Strict Implicit. Unset Printing Implicit Defensive.
Import GRing.Theory Num.Theory Order.POrderTheory.
Local Open Scope ring_scope.

Section Theorems.
Variable R : rcfType.
Variable to_normal : N -> R.
Variable tt_random : seq nat -> seq nat -> N -> seq (nd R).
Variable stream : N -> nat -> R.
Variable offset : N -> nat -> N.
Variable right_seed_of : N -> nat -> N.
Variable lstsq : nd R -> nd R -> res (nd R).
Variable qr_econ : nd R -> res (nd R * nd R).
Hypothesis lstsq_ok : lstsq_contract lstsq.
Hypothesis qr_ok : qr_contract qr_econ.
Notation gs := (general_sketch to_normal lstsq qr_econ).
Notation assemble := (assemble lstsq).
Notation orthogonal_sketch := (orthogonal_sketch to_normal tt_random stream offset right_seed_of lstsq qr_econ).
Notation hmt_sketch := (hmt_sketch to_normal tt_random stream offset lstsq qr_econ).
Notation C0 := (C0 R).
Notation rmat := (rmat to_normal).
Notation lmat := (lmat to_normal).
Implicit Types (X Y : tensor R) (D E : drm R) (a : nd R).

(* the train cs represents an array y with P y *)
Definition gives (P : nd R -> Prop) (cs : seq (nd R)) : Prop := exists2 y, to_numpy (TT cs) = Ok y & P y.

Lemma acc_fin X a (cs : seq (nd R)) : wf X -> to_numpy X = Ok a -> wf_tt cs -> tshape (TT cs) = tshape X ->
  exists2 y, to_numpy (TT cs) = Ok y & dist2 (tshape X) (get a) (get y) = dist2 (tshape X) (den X) (den (TT cs)).
Proof.
move=> w ea wt st; have [sa da] := den_numpy w ea.
have [|y ey [wy sy gy]] := @to_numpyE R (TT cs); first exact: wt.
by exists y => //; rewrite st in gy; apply: eq_sum_idx => i hi; rewrite da // gy.
Qed.

(* ---- hmt_sketch ---- *)
(* For any matrices M: the squared error is at most the sum over the bonds of
   |X_mu - X_mu R_mu M_mu|^2, i.e. at every bond the distance of the unfolding to the column
   space of X_mu R_mu *)
Theorem C54_hmt o X a E : let s := tshape X in let d := size s in
  wf X -> to_numpy X = Ok a -> (1 < d)%N -> right_ok_drm E s -> fits E d.-1 X -> order_ok o X ->
  all (fun n => 0 < n)%N s -> all (fun n => 0 < n)%N (d_rank E) -> left_fits s (rev (d_rank E)) ->
  or_linalg (gs X None E Hmt) (fun c => gives (fun y =>
    forall M : (forall mu, 'M[R]_(drm_cols E (d - mu.+2), prods (drop mu.+1 s))),
    dist2 s (get a) (get y) <= \sum_(0 <= mu < d.-1)
      sqf (unfolding s (get a) mu - unfolding s (get a) mu *m rmat o E s mu *m M mu)) (Psi_cores c)).
Proof.
move=> s d w ea d1 hE fE oX hs hr fe; have rE : size (d_rank E) = d.-1 by case: hE => sE _ [_]; rewrite sE.
have [sa da] := den_numpy w ea.
apply: or_imp (@hmt_gs R to_normal lstsq qr_econ qr_ok o X E w d1 hE fE oX hs hr fe) _ => c h.
have [|wt st _ _] := inv_tt d1 _ h; first by rewrite size_rev.
have [y ey e] := acc_fin w ea wt st; exists y => // M; rewrite e.
apply: le_trans (acc_hmt M d1 h) _; rewrite le_eqVlt; apply/orP; left; apply/eqP.
by apply: eq_bigr => mu _; rewrite (unfolding_ext mu da).
Qed.

(* With the best rank-k part of each unfolding (or any part B C with orthonormal rows C): if
   X_mu = B C + T with T C^t = 0 and C R_mu has a right inverse P, the bond contributes
   |T|^2 + |T R_mu P|^2 (the bound of Halko, Martinsson and Tropp) *)
Lemma structural m n k r (U T : 'M[R]_(m, n)) (B : 'M[R]_(m, k)) (C : 'M[R]_(k, n)) (G : 'M[R]_(n, r)) (P : 'M[R]_(r, k)) :
  U = B *m C + T -> C *m C^T = 1%:M -> T *m C^T = 0 -> C *m G *m P = 1%:M ->
  sqf (U - U *m G *m (P *m C)) = sqf T + sqf (T *m G *m P).
Proof.
move=> -> hC hT hP; rewrite -(sqf_pyth _ hC hT); congr sqf.
rewrite !mulmxDl.
have -> : B *m C *m G *m (P *m C) = B *m C.
  by rewrite mulmxA -(mulmxA B C G) -(mulmxA B (C *m G) P) hP mulmx1.
by rewrite opprD addrACA subrr add0r mulmxA.
Qed.

Theorem C54_hmt_structural o X a E (k : nat -> nat)
    (B : forall mu, 'M[R]_(prods (take mu.+1 (tshape X)), k mu)) (C : forall mu, 'M[R]_(k mu, prods (drop mu.+1 (tshape X))))
    (T : forall mu, 'M[R]_(prods (take mu.+1 (tshape X)), prods (drop mu.+1 (tshape X))))
    (P : forall mu, 'M[R]_(drm_cols E (size (tshape X) - mu.+2), k mu)) :
  let s := tshape X in let d := size s in
  wf X -> to_numpy X = Ok a -> (1 < d)%N -> right_ok_drm E s -> fits E d.-1 X -> order_ok o X ->
  all (fun n => 0 < n)%N s -> all (fun n => 0 < n)%N (d_rank E) -> left_fits s (rev (d_rank E)) ->
  (forall mu, (mu < d.-1)%N -> [/\ unfolding s (get a) mu = B mu *m C mu + T mu, C mu *m (C mu)^T = 1%:M,
     T mu *m (C mu)^T = 0 & C mu *m rmat o E s mu *m P mu = 1%:M]) ->
  or_linalg (gs X None E Hmt) (fun c => gives (fun y =>
    dist2 s (get a) (get y) <= \sum_(0 <= mu < d.-1) (sqf (T mu) + sqf (T mu *m rmat o E s mu *m P mu))) (Psi_cores c)).
Proof.
move=> s d w ea d1 hE fE oX hs hr fe H.
apply: or_imp (C54_hmt w ea d1 hE fE oX hs hr fe) _ => c [y ey h]; exists y => //.
apply: le_trans (h (fun mu => P mu *m C mu)) _; rewrite le_eqVlt; apply/orP; left; apply/eqP.
by apply: eq_big_nat => mu hm; have [h1 h2 h3 h4] := H mu hm; apply: structural h1 h2 h3 h4.
Qed.

(* ---- orthogonal_sketch ---- *)
(* W_mu = L_mu^t X_mu R_mu is the Omega matrix of bond mu.  No rank condition is needed *)
Theorem C54_orthogonal o X a D E : let s := tshape X in let d := size s in
  wf X -> to_numpy X = Ok a -> (1 < d)%N -> pair_ok D E s -> fits D d.-1 X -> fits E d.-1 X -> order_ok o X ->
  all (fun n => 0 < n)%N s -> all (fun n => 0 < n)%N (d_rank D) -> all (fun n => 0 < n)%N (d_rank E) ->
  left_fits s (d_rank D) ->
  or_linalg (gs X (Some D) E Orthogonal) (fun c => gives (fun y =>
    forall M : (forall mu, 'M[R]_(drm_cols D mu, prods (drop mu.+1 s))),
    dist2 s (get a) (get y) <= \sum_(0 <= mu < d.-1)
      let U := unfolding s (get a) mu in let W := (lmat D s mu)^T *m U *m rmat o E s mu in
      sqf (U - U *m rmat o E s mu *m W^T *m M mu)) (Psi_cores c)).
Proof.
move=> s d w ea d1 hp fD fE oX hs hl hr fe; have [c0 ec0 h] := orth_gs to_normal lstsq_ok qr_ok w d1 hp fD fE oX hs hl hr fe.
have [sD _ _ [_ rD] _] := hp; rewrite sD in rD; have [sa da] := den_numpy w ea.
have [c2 ec2 hc] := gs_isk to_normal lstsq qr_econ (wf_gen_rep w) d1 hp fD fE oX; move: ec2; rewrite ec0 => -[ec2].
rewrite -{c2}ec2 in hc.
apply: or_imp h _ => c [_ h]; have [wt st _ _] := inv_tt d1 rD h.
have [y ey e] := acc_fin w ea wt st; exists y => // M; rewrite e.
apply: le_trans (acc_orth M d1 h) _; rewrite le_eqVlt; apply/orP; left; apply/eqP.
have {}hc := is_sk_numpy w ea hc.
apply: eq_big_nat => mu hm; rewrite (unfolding_ext mu da); cbv zeta.
by rewrite -(W_mx hc hm).
Qed.

(* if W_mu has full row rank the bond contributes at most the error of the generalized Nystrom
   approximation X_mu R_mu W_mu^+ L_mu^t X_mu of the unfolding *)
Theorem C54_orthogonal_nystrom o X a D E : let s := tshape X in let d := size s in
  wf X -> to_numpy X = Ok a -> (1 < d)%N -> pair_ok D E s -> fits D d.-1 X -> fits E d.-1 X -> order_ok o X ->
  all (fun n => 0 < n)%N s -> all (fun n => 0 < n)%N (d_rank D) -> all (fun n => 0 < n)%N (d_rank E) ->
  left_fits s (d_rank D) ->
  or_linalg (gs X (Some D) E Orthogonal) (fun c => gives (fun y =>
    dist2 s (get a) (get y) <= \sum_(0 <= mu < d.-1)
      let U := unfolding s (get a) mu in let L := lmat D s mu in let G := rmat o E s mu in
      let W := L^T *m U *m G in sqf (U - U *m G *m pinv_row W *m L^T *m U)) (Psi_cores c)).
Proof.
move=> s d w ea d1 hp fD fE oX hs hl hr fe.
apply: or_imp (C54_orthogonal w ea d1 hp fD fE oX hs hl hr fe) _ => c [y ey h]; exists y => //.
pose Wm mu := (lmat D s mu)^T *m unfolding s (get a) mu *m rmat o E s mu.
apply: le_trans (h (fun mu => invmx (Wm mu *m (Wm mu)^T) *m (lmat D s mu)^T *m unfolding s (get a) mu)) _.
rewrite le_eqVlt; apply/orP; left; apply/eqP; apply: eq_bigr => mu _ /=; congr (sqf (_ - _)).
by rewrite /pinv_row !mulmxA.
Qed.

(* ---- streaming sketch ---- *)
(* K_mu = X_mu R_mu W_mu^+ L_mu^t, the oblique projection of bond mu when r > l *)
Definition obl_left o D E s (x : seq nat -> R) mu :=
  let U := unfolding s x mu in let L := lmat D s mu in let G := rmat o E s mu in
  U *m G *m pinv_row (L^T *m U *m G) *m L^T.
(* R_mu W_mu^+ L_mu^t X_mu, when l > r *)
Definition obl_right o D E s (x : seq nat -> R) mu :=
  let U := unfolding s x mu in let L := lmat D s mu in let G := rmat o E s mu in
  G *m (pinv_col (L^T *m U *m G) *m (L^T *m U)).
Definition om_mx o D E s (x : seq nat -> R) mu := (lmat D s mu)^T *m unfolding s x mu *m rmat o E s mu.

(* they are projections: onto the range of X_mu R_mu (resp. with the row space of L_mu^t X_mu) *)
Theorem C54_projections o D E s (x : seq nat -> R) mu :
  (\rank (om_mx o D E s x mu) = drm_cols D mu ->
    let K := obl_left o D E s x mu in K *m K = K /\ (lmat D s mu)^T *m (unfolding s x mu - K *m unfolding s x mu) = 0) /\
  (\rank (om_mx o D E s x mu) = drm_cols E (size s - mu.+2) ->
    let K := obl_right o D E s x mu in K *m K = K /\ (unfolding s x mu - unfolding s x mu *m K) *m rmat o E s mu = 0).
Proof.
rewrite /obl_left /obl_right -/(om_mx o D E s x mu) /=; set W := om_mx _ _ _ _ _ _.
set U := unfolding _ _ _; set L := lmat _ _ _; set G := rmat _ _ _ _.
have eW : L^T *m U *m G = W by [].
move: eW; move: W L U G => W L U G eW; split=> h.
  have := pinv_rowK h; move: (pinv_row W) => V hV; split.
    by rewrite !mulmxA -(mulmxA (U *m G *m V *m L^T) U G) -(mulmxA (U *m G *m V) L^T (U *m G)) (mulmxA L^T U G) eW -(mulmxA (U *m G *m V) W V) hV mulmx1.
  by rewrite mulmxBr !mulmxA eW hV mul1mx subrr.
have := pinv_colK h; move: (pinv_col W) => V hV; split.
  by rewrite !mulmxA -(mulmxA (G *m V *m L^T) U G) -(mulmxA (G *m V) L^T (U *m G)) (mulmxA L^T U G) eW -(mulmxA G V W) hV mulmx1.
by rewrite mulmxBl !mulmxA -(mulmxA (U *m G *m V *m L^T) U G) -(mulmxA (U *m G *m V) L^T (U *m G)) (mulmxA L^T U G) eW -(mulmxA (U *m G) V W) hV mulmx1 subrr.
Qed.

Lemma act_ext s mu (K : 'M[R]_(prods (take mu.+1 s))) (u v : seq nat -> R) i :
  (forall j, inb s j -> u j = v j) -> act_left K u i = act_left K v i.
Proof. by move=> e; rewrite /act_left (unfolding_ext mu e). Qed.

Lemma bound_left s (x y : seq nat -> R) (K : forall mu, 'M[R]_(prods (take mu.+1 s))) (k : nat -> R) :
  (forall i, inb s i -> y i = foldr (fun mu => act_left (K mu)) x (iota 0 (size s).-1) i) ->
  (forall mu, (mu < (size s).-1)%N -> op_bound (K mu) (k mu)) ->
  dist s x y <= \sum_(0 <= mu < (size s).-1) (\prod_(0 <= t < mu) k t) * frob (unfolding s x mu - K mu *m unfolding s x mu).
Proof.
move=> ey hk; have dC u v : dist s u v = dist s v u.
  by congr Num.sqrt; apply: eq_sum_idx => i _; rewrite -sqrrN opprB.
rewrite dC (dist_ext ey (fun i _ => erefl)).
have k0 mu : (mu < (size s).-1)%N -> 0 <= k mu by move=> hm; have [] := hk mu hm.
have lip mu u v : (mu < (size s).-1)%N -> dist s (act_left (K mu) u) (act_left (K mu) v) <= k mu * dist s u v.
  move=> hm; apply: act_left_lip (hk mu hm); clear -hm; lia.
apply: le_trans (@tele_up R s x (fun mu => act_left (K mu)) k k0 lip (size s).-1 0%N (leqnn _)) _; rewrite add0n le_eqVlt; apply/orP; left; apply/eqP.
apply: eq_big_nat => mu hm; rewrite dC (dist_unf _ _ _ mu) unfolding_refold //; clear -hm; lia.
Qed.

Lemma bound_right s (x y : seq nat -> R) (K : forall mu, 'M[R]_(prods (drop mu.+1 s))) (k : nat -> R) :
  (forall i, inb s i -> y i = foldr (fun mu => act_right (K mu)) x (rev (iota 0 (size s).-1)) i) ->
  (forall mu, (mu < (size s).-1)%N -> op_bound (K mu)^T (k mu)) ->
  dist s x y <= \sum_(0 <= mu < (size s).-1) (\prod_(mu.+1 <= t < (size s).-1) k t) * frob (unfolding s x mu - unfolding s x mu *m K mu).
Proof.
move=> ey hk; have dC u v : dist s u v = dist s v u.
  by congr Num.sqrt; apply: eq_sum_idx => i _; rewrite -sqrrN opprB.
rewrite dC (dist_ext ey (fun i _ => erefl)).
have k0 mu : (mu < (size s).-1)%N -> 0 <= k mu by move=> hm; have [] := hk mu hm.
have lip mu u v : (mu < (size s).-1)%N -> dist s (act_right (K mu) u) (act_right (K mu) v) <= k mu * dist s u v.
  move=> hm; apply: act_right_lip (hk mu hm); clear -hm; lia.
apply: le_trans (@tele_down R s x (fun mu => act_right (K mu)) k k0 lip (size s).-1 (leqnn _)) _; rewrite le_eqVlt; apply/orP; left; apply/eqP.
apply: eq_big_nat => mu hm; rewrite dC (dist_unf _ _ _ mu) unfolding_refold //; clear -hm; lia.
Qed.

Lemma stream_right_acc f g lr rr X a c : let s := tshape X in let d := size s in
  wf X -> to_numpy X = Ok a -> (1 < d)%N -> is_sketch_with f g lr rr s (get a) c ->
  (forall mu, (mu < d)%N -> (0 < nth 0 s mu)%N) -> (forall mu, (mu < d.-1)%N -> (0 < lr mu)%N) ->
  (forall mu, (mu < d.-1)%N -> (0 < rr mu)%N) ->
  (forall mu, (mu < d.-1)%N -> \rank (amat (nth C0 (Omega_mats c) mu) (lr mu) (rr mu)) = lr mu) ->
  or_linalg (assemble c DirRight) (gives (fun y => forall i, inb s i ->
     get y i = foldr (fun mu => act_left (Kr s (get a) f g lr rr c mu)) (get a) (iota 0 d.-1) i)).
Proof.
move=> s d w ea d1 hc ps pl pr full.
apply: or_imp (asmRE lstsq_ok d1 hc ps pl pr) _ => cs h; have [lk dm _ _ _] := h.
have [|y ey [wy sy gy]] := @to_numpyE R (TT cs).
  by rewrite /wf /= /wf_tt lk andbT; move: d1; rewrite /d -dm; case: (cs).
exists y => // i hi; rewrite /= dm in gy; rewrite gy //; exact: (streamR d1 hc h full).
Qed.
Lemma stream_left_acc f g lr rr X a c : let s := tshape X in let d := size s in
  wf X -> to_numpy X = Ok a -> (1 < d)%N -> is_sketch_with f g lr rr s (get a) c ->
  (forall mu, (mu < d)%N -> (0 < nth 0 s mu)%N) -> (forall mu, (mu < d.-1)%N -> (0 < lr mu)%N) ->
  (forall mu, (mu < d.-1)%N -> (0 < rr mu)%N) ->
  (forall mu, (mu < d.-1)%N -> \rank (amat (nth C0 (Omega_mats c) mu) (lr mu) (rr mu)) = rr mu) ->
  or_linalg (assemble c DirLeft) (gives (fun y => forall i, inb s i ->
     get y i = foldr (fun mu => act_right (Kl s (get a) f g lr rr c mu)) (get a) (rev (iota 0 d.-1)) i)).
Proof.
move=> s d w ea d1 hc ps pl pr full.
apply: or_imp (asmLE lstsq_ok d1 hc ps pl pr) _ => cs h; have [lk dm _ _ _] := h.
have [|y ey [wy sy gy]] := @to_numpyE R (TT cs).
  by rewrite /wf /= /wf_tt lk andbT; move: d1; rewrite /d -dm; case: (cs).
exists y => // i hi; rewrite /= dm in gy; rewrite gy //; exact: (streamL d1 hc h full).
Qed.

Lemma foldr_ext (F G : nat -> (seq nat -> R) -> seq nat -> R) x l : (forall mu u i, mu \in l -> F mu u i = G mu u i) ->
  (forall mu u v, mu \in l -> u =1 v -> F mu u =1 F mu v) ->
  foldr F x l =1 foldr G x l.
Proof.
elim: l => //= mu l IH h h2 i; rewrite -h ?mem_head //; apply: (h2 mu); first by rewrite mem_head.
by apply: IH => [nu u j hn|nu u v hn]; [apply: h|apply: h2]; rewrite in_cons hn orbT.
Qed.

Lemma act_ext_right s mu (K : 'M[R]_(prods (drop mu.+1 s))) (u v : seq nat -> R) i :
  (forall j, inb s j -> u j = v j) -> act_right K u i = act_right K v i.
Proof. by move=> e; rewrite /act_right (unfolding_ext mu e). Qed.

(* the array y represented by the assembled train when every Omega has full row rank (is the
   smaller dimension l_mu): the product of the oblique projections of all bonds applied to x,
   and the distance to x *)
Definition acc_right o D E s (x : seq nat -> R) (y : nd R) : Prop :=
  (forall i, inb s i -> get y i = foldr (fun mu => act_left (obl_left o D E s x mu)) x (iota 0 (size s).-1) i) /\
  forall k : nat -> R, (forall mu, (mu < (size s).-1)%N -> op_bound (obl_left o D E s x mu) (k mu)) ->
  dist s x (get y) <= \sum_(0 <= mu < (size s).-1) (\prod_(0 <= t < mu) k t) *
      frob (unfolding s x mu - obl_left o D E s x mu *m unfolding s x mu).
(* the same for full column rank *)
Definition acc_left o D E s (x : seq nat -> R) (y : nd R) : Prop :=
  (forall i, inb s i -> get y i = foldr (fun mu => act_right (obl_right o D E s x mu)) x (rev (iota 0 (size s).-1)) i) /\
  forall k : nat -> R, (forall mu, (mu < (size s).-1)%N -> op_bound (obl_right o D E s x mu)^T (k mu)) ->
  dist s x (get y) <= \sum_(0 <= mu < (size s).-1) (\prod_(mu.+1 <= t < (size s).-1) k t) *
      frob (unfolding s x mu - unfolding s x mu *m obl_right o D E s x mu).

Lemma acc_right_sk o X a D E c : let s := tshape X in let d := size s in let x := get a in
  wf X -> to_numpy X = Ok a -> (1 < d)%N -> is_sk to_normal o D E s x c ->
  all (fun n => 0 < n)%N s -> size (d_rank D) = d.-1 -> size (d_rank E) = d.-1 ->
  all (fun n => 0 < n)%N (d_rank D) -> all (fun n => 0 < n)%N (d_rank E) ->
  (forall mu, (mu < d.-1)%N -> \rank (om_mx o D E s x mu) = drm_cols D mu) ->
  or_linalg (assemble c DirRight) (gives (acc_right o D E s x)).
Proof.
move=> s d x w ea d1 hc hs rD rE hD hE rc.
have eW mu : (mu < d.-1)%N -> amat (nth C0 (Omega_mats c) mu) (drm_cols D mu) (drm_cols E (d - mu.+2)) = om_mx o D E s x mu.
  by move=> hm; apply: (W_mx hc).
apply: or_imp (stream_right_acc w ea d1 hc _ _ _ _) _.
- by move=> mu hm; apply: rank_all hm.
- by move=> mu hm; apply: (rank_all rD).
- move=> mu hm; apply: (rank_all rE) => //; have {}hm : (mu < d.-1)%N := hm; change (size (tshape X)) with d.
  by clear -hm; lia.
- by move=> mu hm; rewrite eW //; apply: rc.
move=> cs [y ey gy]; exists y => //.
have gy' i : inb s i -> get y i = foldr (fun mu => act_left (obl_left o D E s x mu)) x (iota 0 d.-1) i.
  move=> hi; rewrite gy //; apply: foldr_ext => mu u => [j|v].
    by rewrite mem_iota /= => hm; rewrite /Kr eW.
  by move=> _ e j; apply: act_ext => j' _; rewrite e.
by split=> // k hk; apply: bound_left.
Qed.
Lemma acc_left_sk o X a D E c : let s := tshape X in let d := size s in let x := get a in
  wf X -> to_numpy X = Ok a -> (1 < d)%N -> is_sk to_normal o D E s x c ->
  all (fun n => 0 < n)%N s -> size (d_rank D) = d.-1 -> size (d_rank E) = d.-1 ->
  all (fun n => 0 < n)%N (d_rank D) -> all (fun n => 0 < n)%N (d_rank E) ->
  (forall mu, (mu < d.-1)%N -> \rank (om_mx o D E s x mu) = drm_cols E (d - mu.+2)) ->
  or_linalg (assemble c DirLeft) (gives (acc_left o D E s x)).
Proof.
move=> s d x w ea d1 hc hs rD rE hD hE rc.
have eW mu : (mu < d.-1)%N -> amat (nth C0 (Omega_mats c) mu) (drm_cols D mu) (drm_cols E (d - mu.+2)) = om_mx o D E s x mu.
  by move=> hm; apply: (W_mx hc).
apply: or_imp (stream_left_acc w ea d1 hc _ _ _ _) _.
- by move=> mu hm; apply: rank_all hm.
- by move=> mu hm; apply: (rank_all rD).
- move=> mu hm; apply: (rank_all rE) => //; have {}hm : (mu < d.-1)%N := hm; change (size (tshape X)) with d.
  by clear -hm; lia.
- by move=> mu hm; rewrite eW //; apply: rc.
move=> cs [y ey gy]; exists y => //.
have gy' i : inb s i -> get y i = foldr (fun mu => act_right (obl_right o D E s x mu)) x (rev (iota 0 d.-1)) i.
  move=> hi; rewrite gy //; apply: foldr_ext => mu u => [j|v].
    by rewrite mem_rev mem_iota /= => hm; rewrite /Kl eW.
  by move=> _ e j; apply: act_ext_right => j' _; rewrite e.
by split=> // k hk; apply: bound_right.
Qed.

Theorem C54_stream_right o X a D E c : let s := tshape X in let d := size s in let x := get a in
  wf X -> to_numpy X = Ok a -> (1 < d)%N -> pair_ok D E s -> fits D d.-1 X -> fits E d.-1 X -> order_ok o X ->
  all (fun n => 0 < n)%N s -> all (fun n => 0 < n)%N (d_rank D) -> all (fun n => 0 < n)%N (d_rank E) ->
  gs X (Some D) E Streaming = Ok c ->
  (forall mu, (mu < d.-1)%N -> \rank (om_mx o D E s x mu) = drm_cols D mu) ->
  or_linalg (assemble c DirRight) (gives (acc_right o D E s x)).
Proof.
move=> s d x w ea d1 hp fD fE oX hs hD hE ec rc.
have [c' ec' hc] := gs_isk to_normal lstsq qr_econ (wf_gen_rep w) d1 hp fD fE oX; rewrite ec in ec'; case: ec' => ec'.
rewrite -{c'}ec' in hc; have {}hc := is_sk_numpy w ea hc.
case: hp => [sD sE _ [_ rD] [_ rE]]; rewrite sD in rD; rewrite sE in rE.
exact: (acc_right_sk w ea d1 hc).
Qed.

Theorem C54_stream_left o X a D E c : let s := tshape X in let d := size s in let x := get a in
  wf X -> to_numpy X = Ok a -> (1 < d)%N -> pair_ok D E s -> fits D d.-1 X -> fits E d.-1 X -> order_ok o X ->
  all (fun n => 0 < n)%N s -> all (fun n => 0 < n)%N (d_rank D) -> all (fun n => 0 < n)%N (d_rank E) ->
  gs X (Some D) E Streaming = Ok c ->
  (forall mu, (mu < d.-1)%N -> \rank (om_mx o D E s x mu) = drm_cols E (d - mu.+2)) ->
  or_linalg (assemble c DirLeft) (gives (acc_left o D E s x)).
Proof.
move=> s d x w ea d1 hp fD fE oX hs hD hE ec rc.
have [c' ec' hc] := gs_isk to_normal lstsq qr_econ (wf_gen_rep w) d1 hp fD fE oX; rewrite ec in ec'; case: ec' => ec'.
rewrite -{c'}ec' in hc; have {}hc := is_sk_numpy w ea hc.
case: hp => [sD sE _ [_ rD] [_ rE]]; rewrite sD in rD; rewrite sE in rE.
exact: (acc_left_sk w ea d1 hc).
Qed.

(* ---- the entry points ---- *)
Notation to_tt := (stt_to_tt lstsq).
Notation stream_sketch := (stream_sketch to_normal tt_random stream offset right_seed_of lstsq qr_econ).

(* stream_sketch(X, l, r).to_tt() with default (TensorTrainDRM) DRMs; lbig: the left ranks are the
   larger ones *)
Theorem C54_stream_sketch_default X a l r lk rk seed ent (lbig : bool) :
  let s := tshape X in let d := size s in let x := get a in
  tt_random_ok tt_random ->
  wf X -> to_numpy X = Ok a -> right_ok X -> (1 < d)%N -> all (fun n => 0 < n)%N s ->
  process_tt_rank l s false = Ok lk -> process_tt_rank r s false = Ok rk ->
  all (fun n => 0 < n)%N lk -> all (fun n => 0 < n)%N rk ->
  (forall mu, (mu < d.-1)%N -> if lbig then (nth 0 rk mu < nth 0 lk mu)%N else (nth 0 lk mu < nth 0 rk mu)%N) ->
  exists2 st, stream_sketch X l r seed None None None None ent = Ok st &
    let D := left_drm st in let E := right_drm st in
    (forall mu, (mu < d.-1)%N -> \rank (om_mx true D E s x mu) = if lbig then drm_cols E (d - mu.+2) else drm_cols D mu) ->
    or_linalg (to_tt st) (gives (if lbig then acc_left true D E s x else acc_right true D E s x)).
Proof.
move=> s d x hr w ea rX d1 hs pl pr hl hR hb.
have [st es [mD mE cD cE hsk]] := C21_stream_sketch_default to_normal stream offset right_seed_of lstsq qr_econ seed ent hr w ea rX d1 hs pl pr hl hR hb.
exists st => // D E rc; have s0 : (0 < size s)%N by rewrite -/d; clear -d1; lia.
have [[_ _ _ rD] slk] := made_good hr mD; have [[_ _ _ rE] srk] := made_good hr mE.
have [_ slk0] := SkThy9.process_size pl erefl; have [_ srk0] := SkThy9.process_size pr erefl.
have pt b (k : seq nat) : size k = d.-1 -> all (fun n => 0 < n)%N k -> all (fun n => 0 < n)%N (trim_if b s k).
  by move=> sk hk; rewrite /trim_if; case: b => //; have [h1 h2 _ _] := trim_bounds hs hk s0 sk.
have mc : sketch_ st = mk_container (Psi_cores (sketch_ st)) (Omega_mats (sketch_ st)).
  move: es; rewrite /Sketch.stream_sketch; do 2 (case: (rank_gt _ _) => //= ?); case: ifP => // _.
  case: (make_drms _ _ _ _ _ _ _ _ _ _ _ _ _ _ _) => //= p; case e : (general_sketch _ _ _ _ _ _ _) => [c|] //= [<-] /=.
  exact: gs_mk e.
have pD : all (fun n => 0 < n)%N (d_rank D) by rewrite rD; apply: pt.
have pE : all (fun n => 0 < n)%N (d_rank E) by rewrite rE /SkThy9.flip all_rev; apply: pt.
have sD : size (d_rank D) = d.-1 by rewrite rD.
have sE : size (d_rank E) = d.-1 by rewrite rE /SkThy9.flip size_rev.
have [_ kl kr] := mk_ranks hsk mc s0.
rewrite /stt_to_tt (auto_dir lstsq kl kr) ?size_map //.
have eD mu : drm_cols D mu = nth 0%N (trim_if (~~ lbig) s lk) mu by rewrite /drm_cols rD.
have eE mu : (mu < d.-1)%N -> drm_cols E (d - mu.+2) = nth 0%N (trim_if lbig s rk) mu.
  by move=> hm; rewrite right_cols // rE /SkThy9.flip revK.
have cmp mu : (mu < d.-1)%N -> (drm_cols E (d - mu.+2) < drm_cols D mu)%N = lbig.
  move=> hm; rewrite eD eE // /trim_if; have := hb mu hm; case: (lbig) => /= h.
    have [_ _ bl _] := trim_bounds hs hR s0 srk0; apply: leq_ltn_trans h; by have [_] := bl.
  apply/negbTE; rewrite -leqNgt; apply: ltnW; apply: leq_ltn_trans h.
  by have [_ _ bl _] := trim_bounds hs hl s0 slk0; have [_] := bl.
have -> : all (fun p => p.2 < p.1)%N (zip [seq drm_cols D mu | mu <- iota 0 d.-1] [seq drm_cols E (d - mu.+2) | mu <- iota 0 d.-1]) = lbig.
  have szz : size (zip [seq drm_cols D mu | mu <- iota 0 d.-1] [seq drm_cols E (d - mu.+2) | mu <- iota 0 d.-1]) = d.-1.
    by rewrite size_zip !size_map size_iota minnn.
  have nz mu : (mu < d.-1)%N -> nth (0, 0)%N (zip [seq drm_cols D mu | mu <- iota 0 d.-1] [seq drm_cols E (d - mu.+2) | mu <- iota 0 d.-1]) mu = (drm_cols D mu, drm_cols E (d - mu.+2)).
    by move=> hm; rewrite nth_zip ?size_map // !(nth_map 0%N) ?size_iota // nth_iota.
  case eb : lbig; first by apply/(all_nthP (0, 0)%N) => mu; rewrite szz => hm; rewrite nz //= cmp.
  apply/negbTE/negP => /(all_nthP (0, 0)%N)/(_ 0%N); rewrite szz => h.
  have d2 : (0 < d.-1)%N by clear -d1; lia.
  by have := h d2; rewrite nz //= cmp // eb.
case: (lbig) rc => rc; [exact: (@acc_left_sk true X a D E _ w ea d1 hsk hs sD sE pD pE rc) | exact: (@acc_right_sk true X a D E _ w ea d1 hsk hs sD sE pD pE rc)].
Qed.

(* hmt_sketch(X, rank, seed) *)
Theorem C54_hmt_sketch_default X a rank rk seed ent : let s := tshape X in let d := size s in
  tt_random_ok tt_random ->
  wf X -> to_numpy X = Ok a -> right_ok X -> (1 < d <= 102)%N -> all (fun n => 0 < n)%N s ->
  process_tt_rank rank s false = Ok rk -> all (fun n => 0 < n)%N rk ->
  exists2 E, made tt_random stream offset true s (trim_ranks s rk) E &
  or_linalg (hmt_sketch X rank seed None None false ent) (gives (fun y =>
    forall M : (forall mu, 'M[R]_(drm_cols E (d - mu.+2), prods (drop mu.+1 s))),
    dist2 s (get a) (get y) <= \sum_(0 <= mu < d.-1)
      sqf (unfolding s (get a) mu - unfolding s (get a) mu *m rmat true E s mu *m M mu))).
Proof.
move=> s d hr w ea rX /andP[d1 d102] hs hp hk; have s0 : (0 < size s)%N by rewrite -/d; clear -d1; lia.
have [_ sk] := SkThy9.process_size hp erefl.
have [fe pk st] := trim_left_fits hs hk s0 sk d102.
set sd := if seed is Some s0 then s0 else ent 0%N.
have aa : new_args TensorTrainDRM (trim_ranks s rk) (Some sd) by split.
have [E [eE [cE sE tE _] [_ rE _ _ _] gE]] := SkThy9.drm_newE stream offset hr ent true (process_rtuple s0 st) aa.
have mE : made tt_random stream offset true s (trim_ranks s rk) E.
  by exists TensorTrainDRM, ent, (RTuple (trim_ranks s rk)), (Some sd); split=> //; apply: process_rtuple.
exists E => //; have oE : right_ok_drm E s by [].
have fE : fits E d.-1 X by apply: (fits_tt hr X mE cE pk).
have eR : rev (d_rank E) = trim_ranks s rk by rewrite rE /SkThy9.flip revK.
have pE : all (fun n => 0 < n)%N (d_rank E) by rewrite -all_rev eR.
have call : hmt_sketch X rank seed None None false ent = do c <- gs X None E Hmt; Ok (Psi_cores c).
  by rewrite /Sketch.hmt_sketch (process_trimE true hp); cbn [bind]; rewrite -/s -/sd eE.
have lf : left_fits s (rev (d_rank E)) by rewrite eR.
by rewrite call; apply: or_bind (@C54_hmt true X a E w ea d1 oE fE rX hs pE lf) _ => c.
Qed.

(* orthogonal_sketch(X, left_rank, right_rank, seed) *)
Theorem C54_orthogonal_sketch_default X a l r lk rk seed ent : let s := tshape X in let d := size s in
  tt_random_ok tt_random ->
  wf X -> to_numpy X = Ok a -> right_ok X -> (1 < d <= 102)%N -> all (fun n => 0 < n)%N s ->
  process_tt_rank l s false = Ok lk -> process_tt_rank r s false = Ok rk ->
  all (fun n => 0 < n)%N lk -> all (fun n => 0 < n)%N rk ->
  (forall mu, (mu < d.-1)%N -> (nth 0 lk mu < nth 0 rk mu)%N) ->
  exists D E, [/\ made tt_random stream offset false s (trim_ranks s lk) D, made tt_random stream offset true s rk E &
    or_linalg (orthogonal_sketch X l r seed None None None None ent) (gives (fun y =>
    forall M : (forall mu, 'M[R]_(drm_cols D mu, prods (drop mu.+1 s))),
    dist2 s (get a) (get y) <= \sum_(0 <= mu < d.-1)
      let U := unfolding s (get a) mu in let W := (lmat D s mu)^T *m U *m rmat true E s mu in
      sqf (U - U *m rmat true E s mu *m W^T *m M mu)))].
Proof.
move=> s d hr w ea rX /andP[d1 d102] hs pl pr hl hR hb; have s0 : (0 < size s)%N by rewrite -/d; clear -d1; lia.
have [_ slk] := SkThy9.process_size pl erefl.
have [fe pk st] := trim_left_fits hs hl s0 slk d102.
have [||D [E [eDE [_ mD cD _] [_ mE cE _] [p1 p2]]]] := @make_newE R tt_random stream offset right_seed_of hr s l r lk rk seed None None ent true false d1 hs pl pr hl hR.
- by split.
- by split.
rewrite /trim_if in mD mE p1 p2; have [[sD tD gD rD] _] := made_good hr mD; have [[sE tE gE rE] _] := made_good hr mE.
have fD : fits D d.-1 X by apply: (fits_tt hr X mD cD p1).
have fE : fits E d.-1 X by apply: (fits_tt hr X mE cE p2).
have hp : pair_ok D E s by [].
have pD : all (fun n => 0 < n)%N (d_rank D) by rewrite rD.
have pE : all (fun n => 0 < n)%N (d_rank E) by rewrite rE /SkThy9.flip all_rev.
have lf : left_fits s (d_rank D) by rewrite rD.
have call : orthogonal_sketch X l r seed None None None None ent = do c <- gs X (Some D) E Orthogonal; Ok (Psi_cores c).
  have [b [e rb]] := rank_gtE d1 pr pl.
  by rewrite /Sketch.orthogonal_sketch e; case: rb => [_|[]//]; cbn [bind negb]; rewrite eDE.
exists D, E; rewrite call; split=> //.
by apply: or_bind (@C54_orthogonal true X a D E w ea d1 hp fD fE rX hs pD pE lf) _ => c.
Qed.
End Theorems.
Print Assumptions C54_hmt.
Print Assumptions C54_hmt_structural.
Print Assumptions C54_orthogonal.
Print Assumptions C54_orthogonal_nystrom.
Print Assumptions C54_projections.
Print Assumptions C54_stream_right.
Print Assumptions C54_stream_left.
Print Assumptions C54_stream_sketch_default.
Print Assumptions C54_hmt_sketch_default.
Print Assumptions C54_orthogonal_sketch_default.
