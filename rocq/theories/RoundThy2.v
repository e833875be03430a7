(* Observable consequences of RoundThy.v *)
From Coq Require Import String Ascii.
From mathcomp Require Import all_ssreflect all_algebra.
From mathcomp Require Import zify.
From Verif Require Import Py Nd NdThy Ein Utils Tensor Spec LinSpec ChainThy TensorThy TensorThy2.
From Verif Require Import TensorThy4 GatherThy DotThy TrimThy TensorNum SweepThy NormThy RoundSpec RoundThy ErrThy.
Set Implicit Arguments. Unset Strict Implicit. Unset Printing Implicit Defensive.
Import GRing.Theory Num.Theory Order.TTheory.
Local Open Scope ring_scope.

Section Obs.
Variable R : rcfType.
Notation arr := (nd R).
Notation tensor := (tensor R).
Implicit Types (C : arr) (cs ls : seq arr) (X Y : tensor).

Lemma sum_idx_eq0 s (f : seq nat -> R) : (forall i, 0 <= f i) -> sum_idx s f = 0 ->
  forall i, inb s i -> f i = 0.
Proof.
elim: s f => [|n s IH] f f0 /=; first by move=> h [].
move=> h [|k i] // /andP[kn hi]; apply: (IH (fun i => f (k :: i))) => //.
move/eqP: h; rewrite big_mkord psumr_eq0; last by move=> j _; apply: sum_idx_ge0.
by move/allP/(_ (Ordinal kn)); rewrite mem_index_enum => /(_ isT)/eqP.
Qed.

Lemma sqdist0 X Y : wf X -> wf Y -> tshape X = tshape Y -> sqdist X Y = 0 -> to_numpy X = to_numpy Y.
Proof.
move=> wX wY S h; apply: to_numpy_same => //; split=> // i hi.
have := sum_idx_eq0 (fun i => sqr_ge0 _) h hi.
by move/eqP; rewrite sqrf_eq0 subr_eq0 => /eqP.
Qed.

Lemma sqdist_obs X Y a b : wf X -> wf Y -> tshape X = tshape Y -> to_numpy X = Ok a -> to_numpy Y = Ok b ->
  sqdist X Y = sum_idx (nshape a) (fun i => (get a i - get b i) ^+ 2).
Proof.
move=> wX wY S /(to_numpy_rep wX)[_ sa ga] /(to_numpy_rep wY)[_ sb gb].
by rewrite /sqdist sa; apply: eq_sum_idx => i hi; rewrite ga // gb // -S.
Qed.

Variable qr : arr -> res (arr * arr).
Variable svd : arr -> res (arr * arr * arr).
Hypothesis qrP : qr_contract qr.
Hypothesis svdP : svd_contract svd.

Definition round_args cs (m : option ttrank) (o : bool) : Prop :=
  [/\ wf_tt cs, pos_tt cs, o -> all_but_last (fun C => left_orth C) cs &
   if m is Some m' then exists rk, process_tt_rank m' (tshape (TT cs : tensor)) true = Ok rk else True].

Lemma sum_sq_bound (l : seq (seq R)) (sz : nat -> nat) (B : R) :
  (forall k, (k < size l)%N -> (size (nth [::] l k) <= sz k)%N /\ forall s, s \in nth [::] l k -> s ^+ 2 <= B) ->
  0 <= B -> sum_sq l <= B * (\sum_(0 <= k < size l) sz k)%:R.
Proof.
move=> H B0; rewrite /sum_sq (big_nth [::]) natr_sum big_distrr /= big_nat [X in _ <= X]big_nat.
apply: ler_sum => k /andP[_ hk]; have [H1 H2] := H k hk.
apply: le_trans (_ : B * (size (nth [::] l k))%:R <= _); last first.
  by apply: ler_wpmul2l => //; rewrite ler_nat.
elim: (nth [::] l k) H2 {H1} => [|s d IH] h; first by rewrite big_nil mulr0.
rewrite big_cons [size _]/= mulrS mulrDr mulr1 addrC [X in _ <= X]addrC; apply: ler_add.
  by apply: IH => t ht; apply: h; rewrite in_cons ht orbT.
by apply: h; rewrite mem_head.
Qed.

Lemma eps_bound cs rk r eps : round_post_tt eps cs rk r -> 0 <= eps ->
  (forall k, (k < (size cs).-1)%N -> (nth 0%N (tt_rank r.1) k < nth 0%N rk k)%N) ->
  sqdist (TT cs) (TT r.1) <= eps ^+ 2 * sqnorm_of (TT cs)
    * (\sum_(0 <= k < (size cs).-1) (nth 0%N (tt_rank cs) k - nth 0%N (tt_rank r.1) k))%:R.
Proof.
move=> [_ _ _ [_ _ [sz _] D] [-> _]] e0 hk.
have := @sum_sq_bound r.2 (fun k => nth 0%N (tt_rank cs) k - nth 0%N (tt_rank r.1) k)%N (eps ^+ 2 * sqnorm_of (TT cs)).
rewrite sz; apply; last by rewrite mulr_ge0 ?sqr_ge0 ?sqnorm_of_ge0.
move=> k h; have [D1 D2 D3] := D k h; split; last by apply: D3 => //; apply: hk.
by apply: leq_trans D1 _; apply: leq_sub2r; exact: geq_minl.
Qed.

Lemma sum_sq0 (l : seq (seq R)) : (forall d, d \in l -> forall s, s \in d -> s = 0) -> sum_sq l = 0.
Proof.
by move=> h; rewrite /sum_sq big1_seq // => d /andP[_ hd]; rewrite big1_seq // => s /andP[_ hs]; rewrite (h d hd s hs) expr0n.
Qed.

Lemma size_tsh cs : size (tshape (TT cs : tensor)) = size cs.
Proof. by rewrite /= size_map. Qed.

Lemma roundP cs eps m o rk : round_args cs m o ->
  (if m is Some m' then process_tt_rank m' (tshape (TT cs : tensor)) true = Ok rk else rk = tt_rank cs) ->
  or_linalg (tt_round qr svd cs eps m o) (fun out =>
    [/\ wf_tt out, tshape (TT out) = tshape (TT cs), all_but_first (fun C => right_orth C) out &
        forall k, (k < (size cs).-1)%N ->
          (1 <= nth 0%N (tt_rank out) k <= maxn 1 (nth 0%N rk k))%N]).
Proof.
move=> [w p oP mP] E; rewrite round_erase.
apply: (or_bind (tt_round_gP qrP svdP eps w p oP mP)) => r [tt1 [rk' [H1 H2 H3 _]]] /=.
case: H3 => [w' S' [A' P'] [B1 B2 _ _] _]; split=> // k hk.
have sz : size r.1 = size cs by rewrite -size_tsh S' size_tsh.
apply/andP; split.
  move: P'; rewrite (pos_ttE w') => /andP[_ /(all_nthP 0%N)]; apply.
  by rewrite size_tt_rank sz.
case: (m) E H2 => [m'|] E H2.
  by move: H2; rewrite E => -[->].
rewrite E; apply: leq_trans (_ : nth 0%N (tt_rank cs) k <= _)%N; last exact: leq_maxr.
by case: B1 => _ ->.
Qed.
End Obs.
