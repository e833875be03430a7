(* Proofs for property C68, part 1: the calculus of error bounds. *)
From Coq Require Import String Ascii.
From mathcomp Require Import all_ssreflect all_algebra.
From mathcomp Require Import zify.
From Verif Require Import Py Nd NdThy Ein Utils Tensor Spec ChainThy TensorThy TensorThy2 FlModel FlSpec.
Set Implicit Arguments. Unset Strict Implicit. Unset Printing Implicit Defensive.
Import GRing.Theory Num.Theory Order.TTheory.
Local Open Scope ring_scope.

Section Calc.
Variable R : realDomainType.
Variable u : R.
Hypothesis u0 : 0 <= u.
Notation arr := (nd R).

(* y is x after n roundings in quantities bounded by m *)
Definition apx (n : nat) (m x y : R) : Prop := `|x| <= m /\ `|y - x| <= growth u n * m.

Lemma gr_ge1 n : 1 <= (1 + u) ^+ n.
Proof. by apply: exprn_ege1; rewrite ler_addl. Qed.
Lemma gr_ge0 n : 0 <= (1 + u) ^+ n.
Proof. exact: le_trans ler01 (gr_ge1 n). Qed.
Lemma growth0 : growth u 0 = 0. Proof. by rewrite /growth expr0 subrr. Qed.
Lemma growth_ge0 n : 0 <= growth u n.
Proof. by rewrite /growth subr_ge0 gr_ge1. Qed.
Lemma growth_mono n n' : (n <= n')%N -> growth u n <= growth u n'.
Proof. by move=> h; rewrite /growth ler_sub // ler_weexpn2l // ler_addl. Qed.

Lemma apx_pos n m x y : apx n m x y -> 0 <= m.
Proof. by case=> h _; exact: le_trans (normr_ge0 _) h. Qed.
Lemma apx_exact m x : `|x| <= m -> apx 0 m x x.
Proof. by move=> h; split=> //; rewrite subrr normr0 growth0 mul0r. Qed.
Lemma apx_mono n n' m x y : (n <= n')%N -> apx n m x y -> apx n' m x y.
Proof.
move=> h a; have m0 := apx_pos a; case: a => a b; split=> //.
by apply: le_trans b _; rewrite ler_wpmul2r // growth_mono.
Qed.
Lemma apx_size n m x y : apx n m x y -> `|y| <= (1 + u) ^+ n * m.
Proof.
case=> a b; have -> : y = (y - x) + x by rewrite subrK.
apply: le_trans (ler_norm_add _ _) _; apply: le_trans (ler_add b a) _.
by rewrite /growth mulrBl mul1r subrK.
Qed.
Lemma apx_rnd n m x y z : apx n m x y -> rnd u y z -> apx n.+1 m x z.
Proof.
move=> a h; have hs := apx_size a; case: a => a b; split=> //.
have -> : z - x = (z - y) + (y - x) by rewrite addrA subrK.
apply: le_trans (ler_norm_add _ _) _.
apply: le_trans (ler_add (le_trans h (ler_wpmul2l u0 hs)) b) _.
suff -> : growth u n.+1 * m = u * ((1 + u) ^+ n * m) + growth u n * m by [].
by rewrite /growth exprS !mulrBl !mul1r mulrDl mul1r mulrDl addrA mulrA (addrC (u * _ * _)) -!addrA.
Qed.

Lemma apx_mul n1 n2 m1 m2 x1 x2 y1 y2 : apx n1 m1 x1 y1 -> apx n2 m2 x2 y2 ->
  apx (n1 + n2) (m1 * m2) (x1 * x2) (y1 * y2).
Proof.
move=> a1 a2; have s2 := apx_size a2; have p1 := apx_pos a1; have p2 := apx_pos a2.
case: a1 a2 => b1 e1 [b2 e2]; split; first by rewrite normrM ler_pmul.
have -> : y1 * y2 - x1 * x2 = (y1 - x1) * y2 + x1 * (y2 - x2).
  by rewrite mulrBl mulrBr addrA subrK.
apply: le_trans (ler_norm_add _ _) _; rewrite !normrM.
have h1 : `|y1 - x1| * `|y2| <= growth u n1 * m1 * ((1 + u) ^+ n2 * m2) by rewrite ler_pmul.
have h2 : `|x1| * `|y2 - x2| <= m1 * (growth u n2 * m2) by rewrite ler_pmul.
apply: le_trans (ler_add h1 h2) _; rewrite le_eqVlt; apply/orP; left; apply/eqP.
by rewrite /growth exprD mulrACA [m1 * (_ * _)]mulrCA -mulrDl; congr (_ * _); rewrite mulrBl mul1r addrA subrK.
Qed.

Lemma apx_add n m1 m2 x1 x2 y1 y2 : apx n m1 x1 y1 -> apx n m2 x2 y2 ->
  apx n (m1 + m2) (x1 + x2) (y1 + y2).
Proof.
case=> b1 e1 [b2 e2]; split; first exact: le_trans (ler_norm_add _ _) (ler_add b1 b2).
rewrite opprD addrACA mulrDr; exact: le_trans (ler_norm_add _ _) (ler_add e1 e2).
Qed.

Lemma fl_sumP (I : eqType) (t : I -> R) r y n (m x : I -> R) : fl_sum u t r y ->
  (forall j, j \in r -> apx n (m j) (x j) (t j)) ->
  apx (n + (size r).-1) (\sum_(j <- r) m j) (\sum_(j <- r) x j) y.
Proof.
elim=> {r y} [|j|r s s' a b c pe ns ns' _ IH1 _ IH2 rd] h.
- rewrite !big_nil; apply: apx_mono (apx_exact _); rewrite ?normr0 //.
- by rewrite !big_seq1 addn0; apply: h; rewrite inE.
have i1 : forall j, j \in s -> j \in r by move=> j hj; rewrite (perm_mem pe) mem_cat hj.
have i2 : forall j, j \in s' -> j \in r by move=> j hj; rewrite (perm_mem pe) mem_cat hj orbT.
have {IH1}A := IH1 (fun j hj => h j (i1 j hj)).
have {IH2}B := IH2 (fun j hj => h j (i2 j hj)).
rewrite !(perm_big _ pe) /= !big_cat /= (perm_size pe) size_cat.
have q : (0 < size s)%N by rewrite lt0n.
have q' : (0 < size s')%N by rewrite lt0n.
have e : (n + (size s + size s').-1 = (n + (size s + size s').-2).+1)%N by lia.
rewrite e; apply: apx_rnd rd; apply: apx_add.
  by apply: apx_mono A; lia.
by apply: apx_mono B; lia.
Qed.

Lemma fl_dotP (I : eqType) (r : seq I) (f g : I -> R) y n1 n2 (m m' x x' : I -> R) :
  fl_dot u r f g y ->
  (forall j, j \in r -> apx n1 (m j) (x j) (f j)) -> (forall j, j \in r -> apx n2 (m' j) (x' j) (g j)) ->
  apx (n1 + n2 + size r) (\sum_(j <- r) m j * m' j) (\sum_(j <- r) x j * x' j) y.
Proof.
case=> t ht hs hf hg.
case: r ht hs hf hg => [|j0 r] ht hs hf hg.
  inversion hs as [|?|? s s' ? ? ? pe ns ns']; subst.
    by rewrite !big_nil; apply: apx_mono (apx_exact _); rewrite ?normr0.
  by move: (perm_size pe) ns; rewrite size_cat /nilp => /= e; case: (size s) e.
have -> : (n1 + n2 + size (j0 :: r) = (n1 + n2).+1 + (size (j0 :: r)).-1)%N by rewrite /= addnS addSn.
apply: fl_sumP hs _ => j hj; apply: apx_rnd (ht j hj); apply: apx_mul; auto.
Qed.

Lemma fl_dot_nat k (f g : nat -> R) y n1 n2 (m m' x x' : nat -> R) :
  fl_dot u (iota 0 k) f g y ->
  (forall j, (j < k)%N -> apx n1 (m j) (x j) (f j)) -> (forall j, (j < k)%N -> apx n2 (m' j) (x' j) (g j)) ->
  apx (n1 + n2 + k) (\sum_(0 <= j < k) m j * m' j) (\sum_(0 <= j < k) x j * x' j) y.
Proof.
move=> h hf hg; have := fl_dotP h (n1 := n1) (n2 := n2) (m := m) (m' := m') (x := x) (x' := x').
rewrite size_iota /index_iota subn0; apply=> j; rewrite mem_iota add0n => /andP[_ hj]; auto.
Qed.

Lemma get_nabs (a : arr) i : get (nabs a) i = `|get a i|.
Proof.
rewrite /get /=; case: (ltnP (ravel (nshape a) i) (size (ndata a))) => h.
  by rewrite (nth_map 0).
by rewrite !nth_default ?normr0 // size_map.
Qed.
Lemma dim_nabs (a : arr) k : dim (nabs a) k = dim a k. Proof. by []. Qed.
Lemma nwf_nabs (a : arr) : nwf (nabs a) = nwf a. Proof. by rewrite /nwf /= size_map. Qed.
Lemma apx_core (a : arr) i : apx 0 (get (nabs a) i) (get a i) (get a i).
Proof. by apply: apx_exact; rewrite get_nabs. Qed.
End Calc.
