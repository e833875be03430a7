(* Proofs for property C68, part 3: all formats. *)
From Coq Require Import String Ascii.
From mathcomp Require Import all_ssreflect all_algebra.
From mathcomp Require Import zify.
From Verif Require Import Py Nd NdThy Ein Utils Tensor Spec ChainThy TensorThy TensorThy2 FlModel FlSpec FlThy1 FlThy2.
Set Implicit Arguments. Unset Strict Implicit. Unset Printing Implicit Defensive.
Import GRing.Theory Num.Theory Order.TTheory.
Local Open Scope ring_scope.

Section All.
Variable R : realDomainType.
Variable u : R.
Hypothesis u0 : 0 <= u.
Notation arr := (nd R).
Notation tensor := (tensor R).
Notation apx := (apx u).
Implicit Types (X Y : tensor) (a b acc : arr).

Definition fl_sum_np := (fix go (a acc : arr) (l : seq tensor) := match l with
        | [::] => a = acc
        | x :: l' => exists b acc', [/\ fl_to_numpy u x b, fl_iadd u acc b acc' & go a acc' l']
        end).
Lemma fl_to_numpy_sum s Xs a : fl_to_numpy u (TSum s Xs) a <-> fl_sum_np a (zeros R s) Xs.
Proof.
rewrite /=; move: (zeros R s) => acc; elim: Xs acc => [|x Xs IH] acc //=.
by split=> -[b [acc' [h1 h2 /IH h3]]]; exists b, acc'.
Qed.

Lemma tabs_sum s Xs : tabs (TSum s Xs) = TSum s (map (@tabs R) Xs). Proof. by []. Qed.

(* the entries of X.to_numpy() *)
Lemma fl_to_numpyP X a : wf X -> fl_to_numpy u X a ->
  [/\ nwf a, nshape a = tshape X & forall i, inb (tshape X) i ->
     apx (roundings X) (den (tabs X) i) (den X i) (get a i)].
Proof.
elim/tensor_ind': X a => [b|s inds v|cs|cs|fs c|s Xs IH] a w.
- by move=> ->; split=> // i hi; exact: apx_core.
- case/andP: (w) => w1 w2 /= e.
  have [a'] := sparse_to_numpyE w1 w2; rewrite e => -[<-] [ha sa ga]; split=> // i hi.
  rewrite ga //; apply: apx_exact.
  rewrite /= size_map; apply: le_trans (ler_norm_sum _ _ _) _; rewrite !big_nat; apply: ler_sum => k hk.
  rewrite normrM (nth_map 0) ?(andP hk).2 // ler_wpmul2r //.
  by case: eqP; rewrite ?normr1 ?normr0.
- exact: fl_ttP.
- exact: fl_cpP.
- exact: fl_tuckerP.
rewrite fl_to_numpy_sum => h.
rewrite /wf wf_sumE in w; case/andP: w => _ w.
suff L acc n M0 A0 : nwf acc -> nshape acc = s -> (foldr maxn 0%N (map (@roundings R) Xs) <= n)%N ->
   (forall i, inb s i -> apx n (M0 i) (A0 i) (get acc i)) -> fl_sum_np a acc Xs ->
   [/\ nwf a, nshape a = s & forall i, inb s i ->
     apx (n + size Xs) (M0 i + \sum_(x <- Xs) den (tabs x) i) (A0 i + \sum_(x <- Xs) den x i) (get a i)].
  have [||i hi|H1 H2 H3] := L _ (foldr maxn 0%N (map (@roundings R) Xs)) (fun _ => 0) (fun _ => 0) _ _ (leqnn _) _ h.
  - exact: nwf_zeros.
  - by [].
  - rewrite get_zeros; apply: apx_mono (apx_exact u _) => //; by rewrite normr0.
  split=> // i hi; have := H3 i hi; rewrite !add0r tabs_sum !den_sum big_map; exact.
elim: Xs IH w {h} acc n M0 A0 => [|x Xs IHl] IH /= w acc n M0 A0 Ha Sa hn hA.
  move=> ->; split=> // i hi; rewrite !big_nil !addr0 addn0; exact: hA.
case/andP: w => /andP[Hx /eqP Sx] Hs [b [acc' [hb [Hw Sh Ge] hg]]].
have [||wb sb gb] := IH x _ b _ hb => //; first by left.
have hn' : (roundings x <= n)%N /\ (foldr maxn 0%N (map (@roundings R) Xs) <= n)%N.
  by move: hn; rewrite geq_max => /andP.
have [||||||H1 H2 H3] := IHl _ _ acc' n.+1 (fun i => M0 i + den (tabs x) i) (fun i => A0 i + den x i) _ _ _ _ hg => //.
- by move=> y Hy; apply: IH; right.
- by rewrite Sh.
- exact: leqW hn'.2.
- move=> i hi; rewrite Sa in Ge; apply: apx_rnd (Ge i hi) => //; apply: apx_add; first exact: hA.
  by apply: apx_mono (gb i _); rewrite ?Sx //; case: hn'.
split=> // i hi; rewrite addnS -addSn !big_cons !addrA; exact: H3.
Qed.
End All.
