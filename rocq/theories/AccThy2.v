(* The error of the train computed by the orthogonal and HMT sweeps. *)
From Coq Require Import String Ascii NArith.
From mathcomp Require Import all_ssreflect all_algebra.
From mathcomp Require Import zify.
From Verif Require Import Py Nd NdThy Ein Utils Tensor Spec LinSpec ChainThy TensorThy TensorThy2 SweepThy NormThy RoundThy Sketch SkSpec SkThy1 RecSpec RecThy1 RecThy2 RecThy5 RecThy6 RecThy7 AccThy AccSpec.
Set Implicit Arguments. Unset Strict Implicit. Unset Printing Implicit Defensive.
Import GRing.Theory Num.Theory Order.POrderTheory.
Local Open Scope ring_scope.

Section Mx.
Variable R : rcfType.
Lemma sqf_tr m n (A : 'M[R]_(m, n)) : sqf A = \tr (A *m A^T).
Proof. by apply: eq_bigr => i _; rewrite mxE; apply: eq_bigr => j _; rewrite mxE expr2. Qed.
Lemma sqf_ge0 m n (A : 'M[R]_(m, n)) : 0 <= sqf A.
Proof. by apply: sumr_ge0 => i _; apply: sumr_ge0 => j _; apply: sqr_ge0. Qed.
Lemma sqf_row_orth m n k (A : 'M[R]_(m, n)) (C : 'M_(n, k)) : C *m C^T = 1%:M -> sqf (A *m C) = sqf A.
Proof. by move=> h; rewrite !sqf_tr trmx_mul -mulmxA [C *m _]mulmxA h mul1mx. Qed.
Lemma sqf_pyth m n k (E : 'M[R]_(m, k)) (A : 'M[R]_(m, n)) (C : 'M_(n, k)) : C *m C^T = 1%:M -> E *m C^T = 0 ->
  sqf (E - A *m C) = sqf E + sqf A.
Proof.
move=> h e; rewrite -(sqf_row_orth A h) !sqf_tr linearB /= mulmxBl !mulmxBr trmx_mul.
have e1 : E *m (C^T *m A^T) = 0 by rewrite mulmxA e mul0mx.
have e2 : A *m C *m E^T = 0 by rewrite -mulmxA -[C *m E^T]trmxK trmx_mul trmxK e trmx0 mulmx0.
by rewrite e1 e2 subr0 sub0r opprK linearD.
Qed.

(* the unfolding error as a sum over indices *)
Lemma sqf_unf (s : seq nat) (x : seq nat -> R) mu r (Z : 'M[R]_(prods (take mu.+1 s), r)) (M : 'M[R]_(r, prods (drop mu.+1 s))) (z : seq nat -> nat -> R) (m : nat -> seq nat -> R) :
  (forall p b, Z p b = z (unravel (take mu.+1 s) p) b) -> (forall b q, M b q = m b (unravel (drop mu.+1 s) q)) ->
  sqf (unfolding s x mu - Z *m M) = sum_idx (take mu.+1 s) (fun i => sum_idx (drop mu.+1 s) (fun j =>
    (x (i ++ j) - \sum_(0 <= b < r) z i b * m b j) ^+ 2)).
Proof.
move=> hZ hM; rewrite -sum_ord; apply: eq_bigr => p _; rewrite -sum_ord; apply: eq_bigr => q _.
rewrite !mxE big_mkord; congr ((_ - _) ^+ 2); apply: eq_bigr => b _; by rewrite hZ hM.
Qed.
(* a matrix as a family of columns of index functions *)
Definition mfun (s : seq nat) r (M : 'M[R]_(r, prods s)) (b : nat) (j : seq nat) : R :=
  match insub b, insub (ravel s j) with Some b', Some q => M b' q | _, _ => 0 end.
Lemma mfunE s r (M : 'M[R]_(r, prods s)) b q : M b q = mfun M b (unravel s q).
Proof.
rewrite /mfun valK; have h : (ravel s (unravel s q) < prods s)%N by apply: ravel_lt; apply: inb_unravel.
by rewrite insubT /=; congr (M _ _); apply: val_inj; rewrite /= ravelK.
Qed.
End Mx.

Section Inv.
Variable R : rcfType.
Notation arr := (nd R).
Notation C0 := (C0 R).
Notation one_fun := (@one_fun R).

Lemma acc_inv (X : tensor R) g rr lrank cor cs (z : nat -> seq nat -> nat -> R) (rz : nat -> nat) (M : nat -> nat -> seq nat -> R) :
  let s := tshape X in let d := size s in let f mu i c := chain (take mu.+1 cs) i 0 c in
  (1 < d)%N -> inv X g rr lrank cor d cs ->
  (forall mu, (mu < d.-1)%N -> reproj (nth C0 cs mu)
     (fun a k b => sum_idx (take mu s) (fun i => at_left f one_fun mu i a * z mu (rcons i k) b))
     (at_left (nth 0%N lrank) 1%N mu) (nth 0%N s mu) (nth 0%N lrank mu) (rz mu)) ->
  dist2 s (den X) (den (TT cs)) <= \sum_(0 <= mu < d.-1) sum_idx (take mu.+1 s) (fun i => sum_idx (drop mu.+1 s) (fun j =>
    (den X (i ++ j) - \sum_(0 <= b < rz mu) z mu i b * M mu b j) ^+ 2)).
Proof.
move=> s d f d1 h hz; have lk := swp_links h; have dm := swp_dims h; have rk := swp_rank h; have [sc _] := h.
have s0 : (0 < size s)%N by rewrite -/d; clear -d1; lia.
have lks mu : (mu < d)%N -> links 1 (take mu cs) (at_left (nth 0%N lrank) 1%N mu) by move=> hm; apply: (rec_links lk dm rk).
have sze mu : (mu <= d)%N -> size (take mu cs) = mu by move=> hm; rewrite size_takel // sc.
have szs mu : (mu <= d)%N -> size (take mu s) = mu by move=> hm; rewrite size_takel.
pose T mu := at_left f one_fun mu.
have TE mu i c : (mu < d)%N -> (c < at_left (nth 0%N lrank) 1 mu)%N -> inb (take mu s) i -> T mu i c = chain (take mu cs) i 0 c.
  case: mu => [|mu] //= _ hc; rewrite !take0; case: i => // _ /=.
  by case: c hc => // c; rewrite ltnS ltn0.
have Tis mu : (mu < d)%N -> isom (all_idx (take mu s)) (at_left (nth 0%N lrank) 1%N mu) (T mu).
  move=> hm b c hb hc; rewrite -(@left_isom R _ _ (lks mu hm) _ b c hb hc); last first.
    move=> C /(nthP C0)[nu]; rewrite sze ?(ltnW hm) // => hnu <-; rewrite nth_take //.
    apply: (swp_orth h); rewrite -/s -/d; clear -hm hnu; lia.
  rewrite /modes map_take dm -!sum_idxE; apply: eq_sum_idx => i hi; by rewrite !TE.
have pj := inv_proj d1 h.
have e0 : dist2 s (den X) (den (TT cs)) = sum_idx s (fun i => den X i ^+ 2) - sum_idx s (fun i => den (TT cs) i ^+ 2).
  have := proj_best (fun _ _ => 0) s0 pj => /= e.
  have zz i : \sum_(0 <= c < nth 0%N lrank d.-2) chain (take d.-1 cs) (take d.-1 i) 0 c * 0 = 0 :> R by rewrite big1 // => c _; rewrite mulr0.
  move: e; under eq_sum_idx => i _ do rewrite zz subr0.
  under [X in _ = _ + X]eq_sum_idx => i _ do rewrite zz subr0.
  by move=> ->; rewrite addrK.
have hd : (d.-1 < d)%N by clear -d1; lia.
have el A (u : nat -> A) v : at_left u v d.-1 = u d.-2 by case: (d) d1 => [|[|n]].
have T_step : forall mu i k c, (mu < d.-1)%N -> inb (take mu s) i -> (k < nth 0 s mu)%N -> (c < nth 0 lrank mu)%N ->
  T mu.+1 (rcons i k) c = \sum_(0 <= a < at_left (nth 0%N lrank) 1%N mu) T mu i a * get (nth C0 cs mu) [:: a; k; c].
  move=> mu i k c hm hi hk hc; have hmd : (mu < d)%N by clear -hm; lia.
  have si : size i = mu by rewrite (inb_size hi) szs // ltnW.
  rewrite /T /= /f (take_nth C0) ?sc // (chain_rcons _ (lks mu hmd)) ?rk //; last by rewrite sze // ltnW.
  by apply: eq_big_nat => a ha; congr (_ * _); symmetry; apply: TE.
have Qo : forall mu, (mu < d.-1)%N -> forall b c, (b < nth 0 lrank mu)%N -> (c < nth 0 lrank mu)%N ->
  \sum_(0 <= a < at_left (nth 0%N lrank) 1%N mu) \sum_(0 <= k < nth 0%N s mu) get (nth C0 cs mu) [:: a; k; b] * get (nth C0 cs mu) [:: a; k; c] = (b == c)%:R.
  move=> mu hm b c hb hc; have hmd : (mu < d)%N by clear -hm; lia.
  have := swp_orth h hm; have [_ e] := inv_shape h (leqnn _) hmd.
  by rewrite /left_orth /dim e /= /at_right hm; apply.
have := @sweep_err R s (den X) T (nth C0 cs) (nth 0%N lrank) Tis T_step Qo z rz hz M s0.
rewrite /bond_err -/d (@csq0 R s (den X) T (nth 0%N lrank) erefl) e0.
suff -> : csq s (den X) T (nth 0%N lrank) d.-1 = sum_idx s (fun i => den (TT cs) i ^+ 2) by [].
have dd : drop d.-1 s = [:: nth 0%N s d.-1].
  by rewrite (drop_nth 0%N) // prednK ?drop_size //; clear -d1; lia.
rewrite /csq dd [in RHS](split_last s0) sum_idx_rcons sum_idx_big /=.
apply: eq_big_nat => k hk; have := Tis _ hd => /(isom_sq (fun c => coef s (den X) T d.-1 c [:: k])) <-.
rewrite -sum_idxE; apply: eq_sum_idx => i hi.
have [_ pe] := pj; have /= -> := pe i k hi hk; congr (_ ^+ 2); rewrite !el; apply: eq_big_nat => c hc.
congr (_ * _).
  by rewrite TE // ?el.
rewrite /coef; apply: eq_sum_idx => i' hi'; by rewrite TE ?el // cats1.
Qed.
End Inv.

Section Fam.
Variable R : rcfType.
Notation arr := (nd R).
Notation C0 := (C0 R).
Notation one_fun := (@one_fun R).

Lemma reproj_ext (Q : arr) (P P' : nat -> nat -> nat -> R) l1 n l r : reproj Q P l1 n l r ->
  (forall a k b, (a < l1)%N -> (k < n)%N -> (b < r)%N -> P a k b = P' a k b) -> reproj Q P' l1 n l r.
Proof.
move=> h e a k b ha hk hb; rewrite -e // -(h a k b ha hk hb); apply: eq_bigr => c _; congr (_ * _).
by apply: eq_big_nat => a' ha'; apply: eq_big_nat => k' hk'; rewrite e.
Qed.

(* the columns X R of the unfolding, as functions *)
Definition zfun (s : seq nat) (x : seq nat -> R) (g : nat -> seq nat -> nat -> R) mu i b : R :=
  sum_idx (drop mu.+1 s) (fun j => x (i ++ j) * g mu j b).
Lemma zfunE s x g r mu p (b : 'I_r) : (unfolding s x mu *m fmat (drop mu.+1 s) (g mu) r) p b = zfun s x g mu (unravel (take mu.+1 s) p) b.
Proof. by rewrite mxE /zfun -sum_ord; apply: eq_bigr => q _; rewrite !mxE. Qed.
Lemma psi_z s x g (T : seq nat -> nat -> R) mu a k b :
  Psi_of T (g mu) s x mu a k b = sum_idx (take mu s) (fun i => T i a * zfun s x g mu (rcons i k) b).
Proof.
apply: eq_sum_idx => i _; rewrite /zfun -sum_idxZ; apply: eq_sum_idx => j _; by rewrite cat_rcons mulrA.
Qed.

Lemma acc_hmt (X : tensor R) g rr lrank cs (M : forall mu, 'M[R]_(rr mu, prods (drop mu.+1 (tshape X)))) :
  let s := tshape X in let d := size s in (1 < d)%N -> inv X g rr lrank (rep X rr lrank) d cs ->
  dist2 s (den X) (den (TT cs)) <= \sum_(0 <= mu < d.-1)
    sqf (unfolding s (den X) mu - unfolding s (den X) mu *m fmat (drop mu.+1 s) (g mu) (rr mu) *m M mu).
Proof.
move=> s d d1 h; pose z := zfun s (den X) g.
apply: le_trans (acc_inv (z := z) (rz := rr) (fun mu => mfun (M mu)) d1 h _) _ => [mu hm|].
  refine (reproj_ext (swp_cor h hm) _) => a k b ha hk hb; by rewrite (swp_psi h) // psi_z.
rewrite le_eqVlt; apply/orP; left; apply/eqP; apply: eq_big_nat => mu _.
rewrite (@sqf_unf _ _ _ _ _ _ _ (z mu) (mfun (M mu))) // => [p b|b q]; [exact: zfunE|exact: mfunE].
Qed.

(* the columns X R W^T of the unfolding *)
Lemma acc_orth (X : tensor R) g rr lrank (Om : seq arr) cs (M : forall mu, 'M[R]_(nth 0%N lrank mu, prods (drop mu.+1 (tshape X)))) :
  let s := tshape X in let d := size s in (1 < d)%N ->
  inv X g rr lrank (fun mu P Q => orth_spec (nth C0 Om mu) P Q (at_left (nth 0%N lrank) 1%N mu) (nth 0%N s mu) (rr mu) (nth 0%N lrank mu)) d cs ->
  dist2 s (den X) (den (TT cs)) <= \sum_(0 <= mu < d.-1)
    sqf (unfolding s (den X) mu - unfolding s (den X) mu *m fmat (drop mu.+1 s) (g mu) (rr mu) *m
      (amat (nth C0 Om mu) (nth 0%N lrank mu) (rr mu))^T *m M mu).
Proof.
move=> s d d1 h; pose z mu i c := \sum_(0 <= b < rr mu) zfun s (den X) g mu i b * get (nth C0 Om mu) [:: c; b].
apply: le_trans (acc_inv (z := z) (rz := nth 0%N lrank) (fun mu => mfun (M mu)) d1 h _) _ => [mu hm|].
  have [Sm [ne eQ]] := swp_cor h hm.
  refine (reproj_ext (eQ _ _ (fun q c => \sum_(0 <= b < rr mu) get (nth C0 Om mu) [:: q; b] * get (nth C0 Om mu) [:: c; b]) (fun a k b _ _ _ => erefl)) _) => a k c ha hk hc.
  transitivity (\sum_(0 <= b < rr mu) get (nth C0 Om mu) [:: c; b] * get (Psi_arr X g rr lrank (take mu cs) mu) [:: a; k; b]).
    have := ne a k c ha hk hc; under eq_bigr => b _ do rewrite mulrBr.
    rewrite sumrB => /eqP; rewrite subr_eq0 => /eqP <-.
    under eq_bigr => q _ do rewrite big_distrr.
    rewrite exchange_big_nat; apply: eq_bigr => b _ /=; rewrite big_distrr /=; apply: eq_bigr => q _.
    by rewrite [LHS]mulrC [LHS]mulrAC [LHS]mulrC.
  under [RHS]eq_sum_idx => i _ do rewrite big_distrr.
  rewrite sum_idx_big; apply: eq_big_nat => b hb.
  rewrite (swp_psi h) // psi_z mulrC -sum_idxZr; apply: eq_sum_idx => i _ /=; by rewrite mulrA.
rewrite le_eqVlt; apply/orP; left; apply/eqP; apply: eq_big_nat => mu _.
rewrite (@sqf_unf _ _ _ _ _ _ _ (z mu) (mfun (M mu))) // => [p c|b q]; last exact: mfunE.
rewrite mxE /z big_mkord; apply: eq_bigr => b _; by rewrite zfunE !mxE.
Qed.
End Fam.
