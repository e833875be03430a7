(* The error of a left-to-right sweep of orthogonal projections is bounded by the errors at the
   single bonds. *)
From Coq Require Import String Ascii NArith.
From mathcomp Require Import all_ssreflect all_algebra.
From mathcomp Require Import zify.
From Verif Require Import Py Nd NdThy Ein Utils Tensor Spec LinSpec ChainThy TensorThy TensorThy2 SweepThy NormThy RoundThy Sketch SkSpec SkThy1 RecSpec RecThy1 RecThy2 RecThy5.
Set Implicit Arguments. Unset Strict Implicit. Unset Printing Implicit Defensive.
Import GRing.Theory Num.Theory Order.POrderTheory.
Local Open Scope ring_scope.

Section Bessel.
Variable R : rcfType.

Lemma bessel_eq (T : eqType) (I : seq T) r (L : T -> nat -> R) (u : T -> R) : isom I r L ->
  \sum_(0 <= c < r) (\sum_(i <- I) L i c * u i) ^+ 2 +
  \sum_(i <- I) (u i - \sum_(0 <= c < r) L i c * (\sum_(j <- I) L j c * u j)) ^+ 2 = \sum_(i <- I) u i ^+ 2.
Proof.
move=> H; pose v c := \sum_(j <- I) L j c * u j.
have e1 : \sum_(i <- I) u i * (\sum_(0 <= c < r) L i c * v c) = \sum_(0 <= c < r) v c ^+ 2.
  under eq_bigr => i _ do rewrite big_distrr /=.
  rewrite exchange_big /=; apply: eq_bigr => c _; rewrite expr2 {2}/v big_distrl /=.
  by apply: eq_bigr => i _; rewrite mulrA [u i * _]mulrC.
have -> : \sum_(i <- I) (u i - \sum_(0 <= c < r) L i c * v c) ^+ 2 =
  \sum_(i <- I) u i ^+ 2 - (\sum_(i <- I) u i * (\sum_(0 <= c < r) L i c * v c)) *+ 2 + \sum_(i <- I) (\sum_(0 <= c < r) L i c * v c) ^+ 2.
  rewrite -sumrMnl -sumrB -big_split /=; apply: eq_bigr => i _.
  by rewrite sqrrB.
rewrite (isom_sq v H) e1; set a := \sum_(0 <= c < r) _; set b := \sum_(i <- I) _.
by rewrite addrC -addrA -mulr2n subrK.
Qed.

Lemma sum_ge0 (T : Type) (I : seq T) (f : T -> R) : (forall i, 0 <= f i) -> 0 <= \sum_(i <- I) f i.
Proof. by move=> h; apply: sumr_ge0 => i _; apply: h. Qed.

Lemma bessel_le (T : eqType) (I : seq T) r (L : T -> nat -> R) (u : T -> R) : isom I r L ->
  \sum_(0 <= c < r) (\sum_(i <- I) L i c * u i) ^+ 2 <= \sum_(i <- I) u i ^+ 2.
Proof. by move=> H; rewrite -(bessel_eq u H) ler_addl; apply: sum_ge0 => i; apply: sqr_ge0. Qed.

(* what is lost by projecting u is at most the distance of u to any w in the range *)
Lemma bessel_loss (T : eqType) (I : seq T) r (L : T -> nat -> R) (u w : T -> R) : isom I r L ->
  (forall i, i \in I -> \sum_(0 <= c < r) L i c * (\sum_(j <- I) L j c * w j) = w i) ->
  \sum_(i <- I) u i ^+ 2 - \sum_(0 <= c < r) (\sum_(i <- I) L i c * u i) ^+ 2 <= \sum_(i <- I) (u i - w i) ^+ 2.
Proof.
move=> H hw; rewrite -(bessel_eq u H) addrAC addrN add0r.
rewrite -(bessel_eq (fun i => u i - w i) H) -[X in X <= _]add0r; apply: ler_add.
  by apply: sum_ge0 => c; apply: sqr_ge0.
rewrite le_eqVlt; apply/orP; left; apply/eqP; rewrite big_seq [RHS]big_seq; apply: eq_bigr => i hi; congr (_ ^+ 2).
rewrite -{1}[u i](subrK (w i)) -addrA; congr (_ + _).
rewrite -{1}(hw i hi) -sumrB -sumrN; apply: eq_bigr => c _; rewrite -mulrBr -mulrN; congr (_ * _).
by rewrite -sumrB -sumrN; apply: eq_bigr => j _; rewrite mulrBr opprB.
Qed.
End Bessel.

Section Sweep.
Variable R : rcfType.
Notation arr := (nd R).
Variables (s : seq nat) (x : seq nat -> R) (T : nat -> seq nat -> nat -> R) (Q : nat -> arr) (lr : nat -> nat).
Notation d := (size s).
Notation l mu := (at_left lr 1%N mu).
(* the columns on the first mu modes *)
Hypothesis T0 : T 0 [::] 0 = 1.
Hypothesis T_isom : forall mu, (mu < d)%N -> isom (all_idx (take mu s)) (l mu) (T mu).
Hypothesis T_step : forall mu i k c, (mu < d.-1)%N -> inb (take mu s) i -> (k < nth 0 s mu)%N -> (c < lr mu)%N ->
  T mu.+1 (rcons i k) c = \sum_(0 <= a < l mu) T mu i a * get (Q mu) [:: a; k; c].
Hypothesis Qo : forall mu, (mu < d.-1)%N -> forall b c, (b < lr mu)%N -> (c < lr mu)%N ->
  \sum_(0 <= a < l mu) \sum_(0 <= k < nth 0%N s mu) get (Q mu) [:: a; k; b] * get (Q mu) [:: a; k; c] = (b == c)%:R.
Variables (z : nat -> seq nat -> nat -> R) (rr : nat -> nat).
Hypothesis hz : forall mu, (mu < d.-1)%N ->
  reproj (Q mu) (fun a k b => sum_idx (take mu s) (fun i => T mu i a * z mu (rcons i k) b)) (l mu) (nth 0%N s mu) (lr mu) (rr mu).
Variable M : nat -> nat -> seq nat -> R.

(* coefficients and their square norm *)
Definition coef mu c j : R := sum_idx (take mu s) (fun i => T mu i c * x (i ++ j)).
Definition csq mu : R := sum_idx (drop mu s) (fun j => \sum_(0 <= c < l mu) coef mu c j ^+ 2).
Definition bond_err mu : R := sum_idx (take mu.+1 s) (fun i => sum_idx (drop mu.+1 s) (fun j =>
  (x (i ++ j) - \sum_(0 <= b < rr mu) z mu i b * M mu b j) ^+ 2)).

Lemma csq0 : csq 0 = sum_idx s (fun i => x i ^+ 2).
Proof.
rewrite /csq drop0; apply: eq_sum_idx => j _; rewrite big_nat1; congr (_ ^+ 2).
by rewrite /coef take0 /= T0 mul1r.
Qed.

Lemma coefS mu c j : (mu < d.-1)%N -> (c < lr mu)%N -> coef mu.+1 c j =
  \sum_(0 <= a < l mu) \sum_(0 <= k < nth 0%N s mu) get (Q mu) [:: a; k; c] * coef mu a (k :: j).
Proof.
move=> hmu hc; have hmd : (mu < d)%N by clear -hmu; lia.
have ts : take mu.+1 s = rcons (take mu s) (nth 0%N s mu) by rewrite -take_nth.
rewrite /coef ts sum_idx_rcons.
rewrite (eq_sum_idx (g := fun i => \sum_(0 <= a < l mu) \sum_(0 <= k < nth 0%N s mu)
    get (Q mu) [:: a; k; c] * (T mu i a * x (i ++ k :: j)))).
  rewrite sum_idx_big; apply: eq_bigr => a _; rewrite sum_idx_big; apply: eq_bigr => k _.
  by rewrite sum_idxZ.
move=> i hi; rewrite exchange_big_nat; apply: eq_big_nat => k hk /=.
rewrite T_step // cat_rcons big_distrl; apply: eq_bigr => a _ /=; by rewrite mulrAC mulrC.
Qed.

Lemma sum_idx_le t (f g : seq nat -> R) : (forall i, inb t i -> f i <= g i) -> sum_idx t f <= sum_idx t g.
Proof.
move=> h; rewrite !sum_idxE !big_seq; apply: ler_sum => i hi; apply: h; exact: mem_all_idx hi.
Qed.

Lemma bond_step mu : (mu < d.-1)%N -> csq mu - csq mu.+1 <= bond_err mu.
Proof.
move=> hmu; have hmd : (mu < d)%N by clear -hmu; lia.
set n := nth 0%N s mu; set J := drop mu.+1 s.
have dJ : drop mu s = n :: J by rewrite (drop_nth 0%N).
have ts : take mu.+1 s = rcons (take mu s) n by rewrite -take_nth.
pose I := all_idx [:: l mu; n].
pose L (p : seq nat) c := get (Q mu) [:: nth 0%N p 0; nth 0%N p 1; c].
have sumI (F : seq nat -> R) : \sum_(p <- I) F p = \sum_(0 <= a < l mu) \sum_(0 <= k < n) F [:: a; k].
  by rewrite -sum_idxE.
have iL : isom I (lr mu) L by move=> b c hb hc; rewrite sumI; apply: Qo.
pose y j (p : seq nat) := coef mu (nth 0%N p 0) (nth 0%N p 1 :: j).
pose zz a k b := sum_idx (take mu s) (fun i => T mu i a * z mu (rcons i k) b).
pose w j (p : seq nat) := \sum_(0 <= b < rr mu) zz (nth 0%N p 0) (nth 0%N p 1) b * M mu b j.
have e1 : csq mu = sum_idx J (fun j => \sum_(p <- I) y j p ^+ 2).
  under eq_sum_idx => j _ do rewrite sumI exchange_big_nat /=.
  rewrite sum_idx_big /csq dJ /=; by apply: eq_bigr.
have e2 : csq mu.+1 = sum_idx J (fun j => \sum_(0 <= c < lr mu) (\sum_(p <- I) L p c * y j p) ^+ 2).
  apply: eq_sum_idx => j _; apply: eq_big_nat => c hc; congr (_ ^+ 2).
  by rewrite sumI coefS.
have -> : csq mu - csq mu.+1 = sum_idx J (fun j => \sum_(p <- I) y j p ^+ 2 - \sum_(0 <= c < lr mu) (\sum_(p <- I) L p c * y j p) ^+ 2).
  by rewrite e1 e2 -mulN1r -sum_idxZ -sum_idxD; apply: eq_sum_idx => j _; rewrite mulN1r.
apply: (@le_trans _ _ (sum_idx J (fun j => \sum_(p <- I) (y j p - w j p) ^+ 2))).
  apply: sum_idx_le => j _; apply: bessel_loss => // p hp; have := mem_all_idx hp.
  case: p {hp} => [|a [|k [|? ?]]] //=; rewrite ?andbF // => /and3P[ha hk _].
  rewrite {1}/L /= (eq_bigr (fun c => \sum_(0 <= b < rr mu) (get (Q mu) [:: a; k; c] * (\sum_(0 <= a' < l mu) \sum_(0 <= k' < n) get (Q mu) [:: a'; k'; c] * zz a' k' b)) * M mu b j)).
    rewrite exchange_big_nat /= /w; apply: eq_big_nat => b hb /=; rewrite -big_distrl /=; congr (_ * _).
    exact: (hz hmu ha hk hb).
  move=> c _; rewrite sumI.
  under [RHS]eq_bigr => b _ do rewrite -mulrA.
  rewrite -big_distrr /=; congr (_ * _).
  under [RHS]eq_bigr => b _ do rewrite big_distrl /=.
  rewrite [RHS]exchange_big_nat /=; apply: eq_bigr => a' _.
  under [RHS]eq_bigr => b _ do rewrite big_distrl /=.
  rewrite [RHS]exchange_big_nat /=; apply: eq_bigr => k' _.
  by rewrite /L /w /= big_distrr; apply: eq_bigr => b _ /=; rewrite mulrA.
pose u i k j := x (rcons i k ++ j) - \sum_(0 <= b < rr mu) z mu (rcons i k) b * M mu b j.
have yw j a k : y j [:: a; k] - w j [:: a; k] = \sum_(i <- all_idx (take mu s)) T mu i a * u i k j.
  rewrite /y /w /= /coef -sum_idxE /u; apply/eqP; rewrite subr_eq; apply/eqP.
  rewrite /zz; under [X in _ = _ + X]eq_bigr => b _ do rewrite -sum_idxZr.
  rewrite -sum_idx_big -sum_idxD; apply: eq_sum_idx => i _; rewrite mulrBr cat_rcons.
  rewrite big_distrr /= (eq_bigr (fun b => T mu i a * z mu (rcons i k) b * M mu b j)) ?subrK // => b _.
  by rewrite mulrA.
rewrite /bond_err ts sum_idx_rcons -/J.
have -> : sum_idx (take mu s) (fun i => \sum_(0 <= k < n) sum_idx J (fun j => (x (rcons i k ++ j) - \sum_(0 <= b < rr mu) z mu (rcons i k) b * M mu b j) ^+ 2)) =
   sum_idx J (fun j => \sum_(0 <= k < n) \sum_(i <- all_idx (take mu s)) u i k j ^+ 2).
  rewrite [RHS]sum_idx_big sum_idx_big; apply: eq_bigr => k _.
  rewrite sum_idx_exch; apply: eq_sum_idx => j _; by rewrite -sum_idxE.
apply: sum_idx_le => j _; rewrite sumI exchange_big_nat /=; apply: ler_sum => k _.
under eq_bigr => a _ do rewrite yw.
apply: bessel_le; exact: T_isom.
Qed.

Lemma sweep_err : (0 < d)%N -> csq 0 - csq d.-1 <= \sum_(0 <= mu < d.-1) bond_err mu.
Proof.
move=> d0; have : (d.-1 <= d.-1)%N by []; move: {1 3 4}d.-1; elim=> [|n IH] hn; first by rewrite big_geq // subrr.
rewrite big_nat_recr //= -(subrK (csq n) (csq 0)) -addrA; apply: ler_add; first exact: IH (ltnW hn).
exact: bond_step.
Qed.
End Sweep.
