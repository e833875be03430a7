(* The train assembled from a streaming sketch, when the Omega matrices have full rank. *)
From Coq Require Import String Ascii NArith.
From mathcomp Require Import all_ssreflect all_algebra.
From mathcomp Require Import zify.
From Verif Require Import Py Nd NdThy Ein Utils Tensor Spec LinSpec ChainThy TensorThy TensorThy2 SweepThy NormThy RoundThy Sketch SkSpec SkThy1 RecSpec RecThy1 RecThy2 RecThy3 RecThy4 ArnSpec GmresMath AccThy AccSpec AccThy2 AccThy3.
Set Implicit Arguments. Unset Strict Implicit. Unset Printing Implicit Defensive.
Import GRing.Theory Num.Theory Order.POrderTheory.
Local Open Scope ring_scope.

Section Gram.
Variable R : rcfType.
Lemma sqf0 m n (A : 'M[R]_(m, n)) : sqf A = 0 -> A = 0.
Proof.
move=> h; apply/matrixP=> i j; rewrite mxE.
have p1 (i' : 'I_m) : true -> 0 <= \sum_j A i' j ^+ 2 by move=> _; apply: sumr_ge0 => j' _; apply: sqr_ge0.
have h1 : \sum_j A i j ^+ 2 = 0 by apply: (psumr_eq0P p1 h).
have p2 (j' : 'I_n) : true -> 0 <= A i j' ^+ 2 by move=> _; apply: sqr_ge0.
by apply/eqP; rewrite -sqrf_eq0; apply/eqP; apply: (psumr_eq0P p2 h1).
Qed.
Lemma gram_unit l r (W : 'M[R]_(l, r)) : \rank W = l -> W *m W^T \in unitmx.
Proof.
move=> h; rewrite -row_free_unit -kermx_eq0; set N := kermx _.
have e : N *m W = 0.
  by apply: sqf0; rewrite sqf_tr trmx_mul mulmxA -(mulmxA N) mulmx_ker mul0mx linear0.
have : row_free W by rewrite /row_free h.
by rewrite -kermx_eq0 => /eqP k0; have /sub_kermxP := e; rewrite k0 submx0.
Qed.
Lemma pinv_rowK l r (W : 'M[R]_(l, r)) : \rank W = l -> W *m pinv_row W = 1%:M.
Proof. by move=> h; rewrite mulmxA mulmxV // gram_unit. Qed.
Lemma pinv_colK l r (W : 'M[R]_(l, r)) : \rank W = r -> pinv_col W *m W = 1%:M.
Proof. by move=> h; rewrite -mulmxA mulVmx // -{2}(trmxK W) gram_unit // mxrank_tr. Qed.
(* least squares solutions are unique *)
Lemma lsq_row l r n (W : 'M[R]_(l, r)) (P : 'M[R]_(n, r)) (S0 : 'M[R]_(n, l)) : \rank W = l ->
  (S0 *m W - P) *m W^T = 0 -> S0 = P *m pinv_row W.
Proof.
move=> h e; rewrite /pinv_row mulmxA; move/eqP: e; rewrite mulmxBl subr_eq0 -mulmxA => /eqP <-.
by rewrite mulmxK // gram_unit.
Qed.
Lemma lsq_col l r n (W : 'M[R]_(l, r)) (P : 'M[R]_(l, n)) (S0 : 'M[R]_(r, n)) : \rank W = r ->
  W^T *m (W *m S0 - P) = 0 -> S0 = pinv_col W *m P.
Proof.
move=> h e; rewrite /pinv_col -mulmxA; move/eqP: e; rewrite mulmxBr subr_eq0 mulmxA => /eqP <-.
by rewrite mulKmx // -{2}(trmxK W) gram_unit // mxrank_tr.
Qed.
End Gram.

Section Act.
Variable R : rcfType.
Variables (s : seq nat).
Lemma act_leftE mu l (Z : 'M[R]_(prods (take mu.+1 s), l)) f (z : seq nat -> nat -> R) u i j :
  (forall p c, Z p c = z (unravel (take mu.+1 s) p) c) ->
  (mu < size s)%N -> inb (take mu.+1 s) i -> inb (drop mu.+1 s) j ->
  act_left (Z *m (fmat (take mu.+1 s) f l)^T) u (i ++ j) =
  \sum_(0 <= c < l) z i c * sum_idx (take mu.+1 s) (fun i' => f i' c * u (i' ++ j)).
Proof.
move=> hZ hm hi hj; rewrite /act_left refoldE // -mulmxA mxE big_mkord; apply: eq_bigr => c _.
rewrite hZ /= unravelK // mxE; congr (_ * _); rewrite -(sum_ord (take mu.+1 s)); apply: eq_bigr => p _.
by rewrite !mxE /= unravelK.
Qed.
Lemma act_rightE mu r (Z : 'M[R]_(r, prods (drop mu.+1 s))) g (z : nat -> seq nat -> R) u i j :
  (forall c q, Z c q = z c (unravel (drop mu.+1 s) q)) ->
  (mu < size s)%N -> inb (take mu.+1 s) i -> inb (drop mu.+1 s) j ->
  act_right (fmat (drop mu.+1 s) g r *m Z) u (i ++ j) =
  \sum_(0 <= c < r) sum_idx (drop mu.+1 s) (fun j' => u (i ++ j') * g j' c) * z c j.
Proof.
move=> hZ hm hi hj; rewrite /act_right refoldE // mulmxA mxE big_mkord; apply: eq_bigr => c _.
rewrite hZ /= unravelK // mxE; congr (_ * _); rewrite -(sum_ord (drop mu.+1 s)); apply: eq_bigr => p _.
by rewrite !mxE /= unravelK.
Qed.
End Act.

Section Stream.
Variable R : rcfType.
Notation arr := (nd R).
Notation C0 := (C0 R).
Notation one_fun := (@one_fun R).
Variables (s : seq nat) (x : seq nat -> R) (f g : nat -> seq nat -> nat -> R) (lr rr : nat -> nat) (c : container R).
Notation d := (size s).
Hypothesis d1 : (1 < d)%N.
Hypothesis hc : is_sketch_with f g lr rr s x c.
Notation W mu := (amat (nth C0 (Omega_mats c) mu) (lr mu) (rr mu)).
Notation L mu := (fmat (take mu.+1 s) (f mu) (lr mu)).
Notation G mu := (fmat (drop mu.+1 s) (g mu) (rr mu)).
Notation U mu := (unfolding s x mu).

Lemma W_mx mu : (mu < d.-1)%N -> W mu = (L mu)^T *m U mu *m G mu.
Proof.
move=> hm; rewrite -omega_mx; apply/matrixP=> a b; rewrite !mxE.
by have [_ _ _ hO] := hc; have [_ _ ->] := hO mu hm.
Qed.

Section Rt.
Variable cs : seq arr.
Hypothesis as_ : asmR s lr rr c cs.
Hypothesis full : forall mu, (mu < d.-1)%N -> \rank (W mu) = lr mu.
Definition Kr mu := U mu *m G mu *m pinv_row (W mu) *m (L mu)^T.
Let zp mu i q := \sum_(b < rr mu) zfun s x g mu i b * (if insub q is Some q' then pinv_row (W mu) b q' else 0).

Lemma coreR mu a k q : (mu < d.-1)%N -> (a < at_left lr 1 mu)%N -> (k < nth 0 s mu)%N -> (q < lr mu)%N ->
  get (nth C0 cs mu) [:: a; k; q] = sum_idx (take mu s) (fun i => at_left f one_fun mu i a * zp mu (rcons i k) q).
Proof.
move=> hm ha hk hq; have hmd : (mu < d)%N by clear -hm; lia.
case: as_ => [_ _ _ ne _]; have [_ _ hP _] := hc; have [_ _ gP] := hP mu hmd; move: gP; rewrite /at_right hm => gP.
pose P : 'rV[R]_(rr mu) := \row_b get (nth C0 (Psi_cores c) mu) [:: a; k; nat_of_ord b].
pose S0 : 'rV[R]_(lr mu) := \row_e get (nth C0 cs mu) [:: a; k; nat_of_ord e].
have e : (S0 *m W mu - P) *m (W mu)^T = 0.
  apply/rowP=> i; rewrite !mxE -[RHS](ne mu a k i hm ha hk (ltn_ord i)) big_mkord; apply: eq_bigr => b _.
  rewrite !mxE [LHS]mulrC; congr (_ * (_ - _)); rewrite big_mkord; apply: eq_bigr => t _; by rewrite !mxE mulrC.
have := congr1 (fun A : 'rV_(lr mu) => A 0 (Ordinal hq)) (lsq_row (full hm) e); rewrite !mxE /= => ->.
rewrite /zp; under [RHS]eq_sum_idx => i _ do rewrite big_distrr.
have sum_idx_ord (h : 'I_(rr mu) -> seq nat -> R) : sum_idx (take mu s) (fun i => \sum_(b < rr mu) h b i) = \sum_(b < rr mu) sum_idx (take mu s) (h b).
  by rewrite sum_idxE exchange_big /=; apply: eq_bigr => b _; rewrite sum_idxE.
rewrite sum_idx_ord; apply: eq_bigr => b _; rewrite mxE gP // psi_z -sum_idxZr; apply: eq_sum_idx => i _ /=.
by rewrite insubT mulrA.
Qed.

Lemma chainR n : forall mu a j, (mu + n = d.-1)%N -> (a < at_left lr 1 mu)%N -> inb (drop mu s) j ->
  chain (drop mu cs) j a 0 = sum_idx (take mu s) (fun i => at_left f one_fun mu i a * foldr (fun mu => act_left (Kr mu)) x (iota mu n) (i ++ j)).
Proof.
have [lk dm rk _ lst] := as_; have sc : size cs = d by rewrite -dm size_map.
elim: n => [|n IH] mu a j e ha hj; have hmd : (mu < d)%N by clear -e d1; lia.
all: have dmu : dim (nth C0 cs mu) 1 = nth 0%N s mu by rewrite -dm (nth_map C0) ?sc.
all: move: hj; rewrite (drop_nth 0%N) //; case: j => // k j /= /andP[hk hj]; rewrite (drop_nth C0) ?sc //=.
  rewrite addn0 in e; rewrite e prednK ?drop_oversize ?sc //; last by clear -d1; lia.
  have j0 : j = [::] by move: hj; rewrite e prednK ?drop_oversize; [case: j|by []|clear -d1; lia].
  rewrite e in ha hk hmd; rewrite j0 /= lst; have [_ _ hP _] := hc; have [_ _ gP] := hP _ hmd.
  have [_ shP _] := hP _ hmd; rewrite /dim shP /= /at_right ltnn big_nat1 mulr1.
  rewrite gP //; last by rewrite /at_right ltnn.
  rewrite /at_right ltnn /Psi_of prednK ?drop_oversize //; last by clear -d1; lia.
  by apply: eq_sum_idx => i _ /=; rewrite /SkSpec.one_fun mulr1.
have hm : (mu < d.-1)%N by clear -e; lia.
rewrite rk // (eq_big_nat _ _ (F2 := fun q => sum_idx (take mu s) (fun i => at_left f one_fun mu i a *
   (zp mu (rcons i k) q * sum_idx (take mu.+1 s) (fun i' => f mu i' q * foldr (fun mu => act_left (Kr mu)) x (iota mu.+1 n) (i' ++ j)))))).
  rewrite -sum_idx_big; apply: eq_sum_idx => i hi; rewrite -big_distrr /=; congr (_ * _).
  rewrite -cat_rcons (@act_leftE _ _ _ _ _ (f mu) (zp mu)) //.
    move=> p q; rewrite mxE /zp; apply: eq_bigr => b _; by rewrite zfunE valK.
  by rewrite (take_nth 0%N) // inb_rc hi.
move=> q hq; rewrite coreR // IH //; last by clear -e; lia.
by rewrite -sum_idxZr; apply: eq_sum_idx => i _; rewrite mulrA.
Qed.

Lemma streamR i : inb s i -> den (TT cs) i = foldr (fun mu => act_left (Kr mu)) x (iota 0 d.-1) i.
Proof.
move=> hi; have := @chainR d.-1 0%N 0%N i; rewrite !drop0 take0 /= => -> //.
by rewrite /SkSpec.one_fun mul1r.
Qed.
End Rt.

Section Lf.
Variable cs : seq arr.
Hypothesis as_ : asmL s lr rr c cs.
Hypothesis full : forall mu, (mu < d.-1)%N -> \rank (W mu) = rr mu.
Definition Kl mu := G mu *m (pinv_col (W mu) *m ((L mu)^T *m U mu)).
Let zq mu q j := \sum_(a < lr mu) (if insub q is Some q' then pinv_col (W mu) q' a else 0) * sum_idx (take mu.+1 s) (fun i => f mu i a * x (i ++ j)).

Lemma coreL mu q k b : (mu < d.-1)%N -> (q < rr mu)%N -> (k < nth 0 s mu.+1)%N -> (b < at_right rr 1 d mu.+1)%N ->
  get (nth C0 cs mu.+1) [:: q; k; b] = sum_idx (drop mu.+2 s) (fun j => zq mu q (k :: j) * at_right g one_fun d mu.+1 j b).
Proof.
move=> hm hq hk hb; have hmd : (mu.+1 < d)%N by clear -hm; lia.
case: as_ => [_ _ _ ne _]; have [_ _ hP _] := hc; have [_ _ gP] := hP mu.+1 hmd.
pose P : 'cV[R]_(lr mu) := \col_a get (nth C0 (Psi_cores c) mu.+1) [:: nat_of_ord a; k; b].
pose S0 : 'cV[R]_(rr mu) := \col_e get (nth C0 cs mu.+1) [:: nat_of_ord e; k; b].
have e : (W mu)^T *m (W mu *m S0 - P) = 0.
  apply/colP=> i; rewrite !mxE -[RHS](ne mu i k b hm (ltn_ord i) hk hb) big_mkord; apply: eq_bigr => a _.
  rewrite !mxE; congr (_ * (_ - _)); rewrite big_mkord; apply: eq_bigr => t _; by rewrite !mxE.
have := congr1 (fun A : 'cV_(rr mu) => A (Ordinal hq) 0) (lsq_col (full hm) e); rewrite !mxE /= => ->.
rewrite /zq; under [RHS]eq_sum_idx => i _ do rewrite big_distrl.
have sum_idx_ord (h : 'I_(lr mu) -> seq nat -> R) : sum_idx (drop mu.+2 s) (fun i => \sum_(b < lr mu) h b i) = \sum_(b < lr mu) sum_idx (drop mu.+2 s) (h b).
  by rewrite sum_idxE exchange_big /=; apply: eq_bigr => b' _; rewrite sum_idxE.
rewrite sum_idx_ord; apply: eq_bigr => a _; rewrite [P _ _]mxE gP // insubT /Psi_of /= -sum_idxZ.
rewrite (eq_sum_idx (g := fun i => sum_idx (drop mu.+2 s) (fun j => pinv_col (W mu) (Ordinal hq) a * (f mu i a * x (i ++ k :: j)) * at_right g one_fun d mu.+1 j b))); last first.
  by move=> i _; rewrite -sum_idxZ; apply: eq_sum_idx => j _; rewrite !mulrA.
rewrite sum_idx_exch; apply: eq_sum_idx => j _; rewrite sum_idxZr sum_idxZ; congr (_ * _ * _).
Qed.

Lemma chainL mu : forall i b, (mu < d)%N -> inb (take mu.+1 s) i -> (b < at_right rr 1 d mu)%N ->
  chain (take mu.+1 cs) i 0 b = sum_idx (drop mu.+1 s) (fun j => foldr (fun mu => act_right (Kl mu)) x (rev (iota 0 mu)) (i ++ j) * at_right g one_fun d mu j b).
Proof.
have [lk dm rk _ fst0] := as_; have sc : size cs = d by rewrite -dm size_map.
elim: mu => [|mu IH] i b hmd hi hb.
  move: hi; rewrite (take_nth 0%N) // take0 /= -/(rcons [::] _); case: i => // k [|? ?]; rewrite ?andbF //= => /andP[hk _].
  rewrite (take_nth C0) ?sc // take0 /= fst0; have [_ _ hP _] := hc; have [_ shP gP] := hP _ hmd.
  have e2 : dim (nth C0 (Psi_cores c) 0) 2 = at_right rr 1%N d 0 by rewrite /dim shP.
  rewrite e2 (sum_nat_delta_r (fun l => get (nth C0 (Psi_cores c) 0) [:: 0%N; k; l]) hb) gP //.
  rewrite /Psi_of take0 /=; by apply: eq_sum_idx => j _ /=; rewrite /SkSpec.one_fun mul1r.
have hm : (mu < d.-1)%N by clear -hmd; lia.
have hmd' : (mu < d)%N by clear -hmd; lia.
have er : rev (iota 0 mu.+1) = mu :: rev (iota 0 mu) by rewrite -addn1 iotaD rev_cat add0n.
rewrite er {er}; have erk : at_right rr 1%N d mu = rr mu by rewrite /at_right hm.
move: hi; rewrite (take_nth 0%N) //; case/lastP: i => [|i k]; first by case: (take _ _).
rewrite inb_rc => /andP[hi hk].
have lks : links 1 (take mu.+1 cs) (rr mu).
  exact: (rec_links lk dm rk hmd).
have d2 : dim (nth C0 cs mu.+1) 2 = at_right rr 1%N d mu.+1.
  rewrite /at_right; case: ltnP => hd; first exact: rk.
  have em : mu.+1 = d.-1 by clear -hmd hd; lia.
  move: lk; rewrite -{1}(take_size cs) sc -(prednK (n := d)) -?em //; last by clear -d1; lia.
  by rewrite (take_nth C0) ?sc // => /links_rcons[r' [_ _ e']]; rewrite /dim e'.
rewrite (take_nth C0) ?sc // (chain_rcons _ lks) //; [|by rewrite (inb_size hi) !size_takel ?sc|by rewrite d2].
rewrite (eq_big_nat _ _ (F2 := fun q => sum_idx (drop mu.+2 s) (fun j => (sum_idx (drop mu.+1 s) (fun j' => foldr (fun mu => act_right (Kl mu)) x (rev (iota 0 mu)) (i ++ j') * g mu j' q) *
    zq mu q (k :: j)) * at_right g one_fun d mu.+1 j b))); last first.
  move=> q hq; rewrite IH ?erk // coreL // -sum_idxZ; apply: eq_sum_idx => j _; rewrite mulrA; congr (_ * _ * _).
  by apply: eq_sum_idx => j' _; rewrite /at_right hm.
rewrite -sum_idx_big; apply: eq_sum_idx => j hj; rewrite -big_distrl /=; congr (_ * _).
rewrite cat_rcons (@act_rightE _ _ _ _ _ (g mu) (zq mu)) //.
  move=> q t; rewrite mxE /zq; apply: eq_bigr => a _; rewrite valK; congr (_ * _).
  by rewrite mxE -(sum_ord (take mu.+1 s)); apply: eq_bigr => p _; rewrite !mxE.
by rewrite (drop_nth 0%N) //= hk.
Qed.

Lemma streamL i : inb s i -> den (TT cs) i = foldr (fun mu => act_right (Kl mu)) x (rev (iota 0 d.-1)) i.
Proof.
have [lk dm rk _ fst0] := as_; have sc : size cs = d by rewrite -dm size_map.
move=> hi; have dp : d.-1.+1 = d by rewrite prednK //; clear -d1; lia.
have hd : (d.-1 < d)%N by rewrite dp.
have := @chainL d.-1 i 0%N hd; rewrite dp take_size drop_size take_oversize ?sc //= => -> //.
  by rewrite cats0 /at_right ltnn /SkSpec.one_fun mulr1.
by rewrite /at_right ltnn.
Qed.
End Lf.
End Stream.
