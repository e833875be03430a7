(* Algebra of multi-index sums and of products of core slices. *)
From Coq Require Import String Ascii.
From mathcomp Require Import all_ssreflect all_algebra.
From mathcomp Require Import zify.
From Verif Require Import Py Nd NdThy Ein Tensor Spec.
Set Implicit Arguments. Unset Strict Implicit. Unset Printing Implicit Defensive.
Import GRing.Theory.
Local Open Scope ring_scope.

Section IdxSums.
Variable R : comRingType.
Implicit Types (s t i j : seq nat) (f g : seq nat -> R).

Lemma eq_sum_idx s f g : (forall i, inb s i -> f i = g i) -> sum_idx s f = sum_idx s g.
Proof.
elim: s f g => [|n s IH] f g H /=; first exact: H.
apply: eq_big_nat => k /= Hk; apply: IH => i Hi; apply: H; rewrite /= Hi.
by rewrite andbT; lia.
Qed.

Lemma sum_idx0 s : sum_idx s (fun _ => 0 : R) = 0.
Proof. by elim: s => [|n s IH] //=; rewrite big1 // => k _; rewrite IH. Qed.

Lemma sum_idxD s f g : sum_idx s (fun i => f i + g i) = sum_idx s f + sum_idx s g.
Proof.
elim: s f g => [|n s IH] f g //=; rewrite -big_split /=.
by apply: eq_bigr => k _; rewrite IH.
Qed.

Lemma sum_idxZ s c f : sum_idx s (fun i => c * f i) = c * sum_idx s f.
Proof.
elim: s f => [|n s IH] f //=; rewrite big_distrr /=.
by apply: eq_bigr => k _; rewrite IH.
Qed.

Lemma sum_idxZr s c f : sum_idx s (fun i => f i * c) = sum_idx s f * c.
Proof. by rewrite mulrC -sum_idxZ; apply: eq_sum_idx => i _; rewrite mulrC. Qed.

Lemma sum_idx_big (I : Type) (r : seq I) (P : pred I) s (F : I -> seq nat -> R) :
  sum_idx s (fun i => \sum_(x <- r | P x) F x i) = \sum_(x <- r | P x) sum_idx s (F x).
Proof.
elim: r => [|x r IH].
  rewrite big_nil -[RHS](sum_idx0 s).
  by apply: eq_sum_idx => i _; rewrite big_nil.
rewrite big_cons; under eq_sum_idx => i _ do rewrite big_cons.
by case: (P x); rewrite ?sum_idxD IH.
Qed.

Lemma sum_idx_cat s t f :
  sum_idx (s ++ t) f = sum_idx s (fun i => sum_idx t (fun j => f (i ++ j))).
Proof.
elim: s f => [|n s IH] f //=; apply: eq_bigr => k _; rewrite IH.
by [].
Qed.

Lemma sum_idx_exch s t (F : seq nat -> seq nat -> R) :
  sum_idx s (fun i => sum_idx t (F i)) = sum_idx t (fun j => sum_idx s (fun i => F i j)).
Proof.
elim: s F => [|n s IH] F //=; rewrite sum_idx_big.
by apply: eq_bigr => k _; rewrite IH.
Qed.

Lemma sum_idx1 n f : sum_idx [:: n] f = \sum_(0 <= k < n) f [:: k].
Proof. by []. Qed.

Lemma sum_idx_rcons s n f :
  sum_idx (rcons s n) f = sum_idx s (fun i => \sum_(0 <= k < n) f (rcons i k)).
Proof. by rewrite -cats1 sum_idx_cat; apply: eq_sum_idx => i _; apply: eq_bigr => k _; rewrite cats1. Qed.

Lemma sum_idx_rev s f : sum_idx (rev s) f = sum_idx s (fun i => f (rev i)).
Proof.
elim: s f => [|n s IH] f //=; rewrite rev_cons sum_idx_rcons IH sum_idx_big.
by apply: eq_bigr => k _; apply: eq_sum_idx => i _; rewrite rev_cons.
Qed.

(* flat sums *)
Lemma sum_idx_flat s f :
  sum_idx s f = \sum_(0 <= p < prods s) f (unravel s p).
Proof.
elim: s f => [|n s IH] f /=; first by rewrite big_nat1.
rewrite -/(prods s) sum_nat_mul; apply: eq_big_nat => k /= Hk; rewrite IH.
apply: eq_big_nat => p /= Hp.
have P : (0 < prods s)%N by case: (prods s) Hp.
by rewrite divnMDl // modnMDl divn_small // modn_small // addn0.
Qed.

Lemma sum_idx_ravel s (F : nat -> R) :
  sum_idx s (fun i => F (ravel s i)) = \sum_(0 <= p < prods s) F p.
Proof. by rewrite sum_idx_flat; apply: eq_big_nat => p Hp; rewrite ravelK. Qed.

Lemma sum_idx_delta s j f : inb s j -> sum_idx s (fun i => (i == j)%:R * f i) = f j.
Proof.
elim: s j f => [|n s IH] [|k j] f //=; first by rewrite mul1r.
move=> /andP[Hk Hj].
rewrite -(sum_nat_delta (fun k => f (k :: j)) Hk); apply: eq_bigr => x _.
rewrite -(IH j (fun j => f (x :: j))) // -sum_idxZ; apply: eq_sum_idx => i _.
by rewrite eqseq_cons mulrA -natrM mulnb.
Qed.
End IdxSums.

Section Chain.
Variable R : comRingType.
Notation arr := (nd R).
Implicit Types (cs : seq arr) (i : seq nat).

Lemma links_cat a cs1 cs2 b : links a (cs1 ++ cs2) b ->
  exists2 r, links a cs1 r & links r cs2 b.
Proof.
elim: cs1 a => [|C cs1 IH] a /=; first by exists a.
by case/and3P=> HC HS /IH[r H1 H2]; exists r => //; rewrite HC HS.
Qed.

Lemma links_catI a cs1 cs2 b r : links a cs1 r -> links r cs2 b -> links a (cs1 ++ cs2) b.
Proof.
elim: cs1 a => [|C cs1 IH] a /=; first by move=> /eqP ->.
by case/and3P=> -> -> /IH H /H.
Qed.

Lemma links_rcons a cs C b : links a (rcons cs C) b ->
  exists r, [/\ links a cs r, nwf C & nshape C = [:: r; dim C 1; b]].
Proof.
rewrite -cats1 => /links_cat[r H1 /= /and3P[H2 /eqP H3 /eqP H4]].
by exists r; split=> //; rewrite H3 H4.
Qed.

Lemma links_rconsI a cs C b r : links a cs r -> nwf C ->
  nshape C = [:: r; dim C 1; b] -> links a (rcons cs C) b.
Proof.
move=> H1 H2 H3; rewrite -cats1; apply: (links_catI H1).
by rewrite /= H2 {1}H3 /dim H3 /= !eqxx.
Qed.

Lemma chain_cat m cs1 cs2 r i1 i2 a b : links m cs1 r -> size i1 = size cs1 -> (a < m)%N ->
  chain (cs1 ++ cs2) (i1 ++ i2) a b = \sum_(0 <= l < r) chain cs1 i1 a l * chain cs2 i2 l b.
Proof.
elim: cs1 m i1 a => [|C cs1 IH] m [|k i1] a //=.
  move=> /eqP <- _ Ha; rewrite -(sum_nat_delta (fun l => chain cs2 i2 l b) Ha).
  by apply: eq_bigr => l _; rewrite eq_sym.
case/and3P=> HC HS Hl [Hs] Ha.
transitivity (\sum_(0 <= l < dim C 2) get C [:: a; k; l] *
   \sum_(0 <= l' < r) chain cs1 i1 l l' * chain cs2 i2 l' b).
  by apply: eq_big_nat => l /= Hl'; rewrite (IH _ _ _ Hl).
under eq_bigr => l _ do rewrite big_distrr /=.
rewrite exchange_big /=; apply: eq_bigr => l' _; rewrite big_distrl /=.
by apply: eq_bigr => l _; rewrite mulrA.
Qed.

Lemma chain_rcons m cs C r i k a b : links m cs r -> size i = size cs -> (a < m)%N ->
  (b < dim C 2)%N ->
  chain (rcons cs C) (rcons i k) a b = \sum_(0 <= l < r) chain cs i a l * get C [:: l; k; b].
Proof.
move=> Hl Hs Ha Hb; rewrite -!cats1 (chain_cat _ _ _ Hl Hs Ha).
apply: eq_bigr => l _ /=; congr (_ * _).
by rewrite (sum_nat_delta_r (fun x => get C [:: l; k; x])).
Qed.

Lemma chain1 (C : arr) k a b : (b < dim C 2)%N -> chain [:: C] [:: k] a b = get C [:: a; k; b].
Proof. by move=> Hb /=; rewrite (sum_nat_delta_r (fun x => get C [:: a; k; x])). Qed.

End Chain.
