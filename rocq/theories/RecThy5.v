(* The orthogonal and HMT sweeps of general_sketch. *)
From Coq Require Import String Ascii NArith.
From mathcomp Require Import all_ssreflect all_algebra.
From mathcomp Require Import zify.
From Verif Require Import Py Nd NdThy Ein Utils Tensor Spec LinSpec ChainThy TensorThy TensorThy2 SweepThy RoundThy Sketch SkSpec SkThy1 SkThy2 SkThy4 SkThy7 SkThy8 SkThy10 SkThy12 RecSpec RecThy1 RecThy2 RecThy3 RecThy4.
Set Implicit Arguments. Unset Strict Implicit. Unset Printing Implicit Defensive.
Import GRing.Theory Num.Theory.
Local Open Scope ring_scope.

Section Step.
Variable R : rcfType.
Notation arr := (nd R).
Notation C0 := (C0 R).
Variable lstsq : arr -> arr -> res arr.
Variable qr : arr -> res (arr * arr).
Hypothesis hl : lstsq_contract lstsq.
Hypothesis qc : qr_contract qr.

(* the columns of Q reproduce P: Q Q^T P = P on the (r1*n, r2) unfoldings *)
Definition reproj (Q : arr) (P : nat -> nat -> nat -> R) (l1 n l r : nat) : Prop :=
  forall a k b, (a < l1)%N -> (k < n)%N -> (b < r)%N ->
  \sum_(0 <= c < l) get Q [:: a; k; c] * (\sum_(0 <= a' < l1) \sum_(0 <= k' < n) get Q [:: a'; k'; c] * P a' k' b) = P a k b.

Lemma qr_proj (Q : nat -> nat -> R) m l (S0 : nat -> R) (A : nat -> R) :
  (forall b c, (b < l)%N -> (c < l)%N -> \sum_(0 <= i < m) Q i b * Q i c = (b == c)%:R) ->
  (forall i, (i < m)%N -> A i = \sum_(0 <= k < l) Q i k * S0 k) ->
  forall i, (i < m)%N -> \sum_(0 <= c < l) Q i c * (\sum_(0 <= p < m) Q p c * A p) = A i.
Proof.
move=> oQ eA i hi; rewrite (eA i hi); apply: eq_big_nat => c hc; congr (_ * _).
rewrite (eq_big_nat _ _ (F2 := fun p => \sum_(0 <= k < l) Q p c * Q p k * S0 k)); last first.
  by move=> p hp; rewrite eA // big_distrr; apply: eq_bigr => k _ /=; rewrite mulrA.
rewrite exchange_big_nat /= -[RHS](@sum_nat_delta R l c (fun k => S0 k)) //.
apply: eq_big_nat => k hk; rewrite -big_distrl /=; congr (_ * _).
by rewrite oQ // eq_sym.
Qed.

Lemma orth_coreE M l1 n l : is_mat M (l1 * n) l -> (l <= l1 * n)%N ->
  or_linalg (do QR <- qr M; reshape QR.1 [:: l1; n; l]) (fun Q => [/\ nwf Q, nshape Q = [:: l1; n; l], left_orth Q &
    forall r (P : nat -> nat -> nat -> R) (W : nat -> nat -> R),
      (forall a k b, (a < l1)%N -> (k < n)%N -> (b < r)%N ->
         P a k b = \sum_(0 <= c < l) get M [:: (a * n + k)%N; c] * W c b) -> reproj Q P l1 n l r]).
Proof.
move=> hM hml; have := qc hM; rewrite (minn_idPr hml); case: (qr M) => //= -[Q0 R0] [hQ hR oQ eQ] /=.
have [Q -> [wQ sQ gQ]] := foldL hQ; split=> //; first exact: (ocols_left_orth oQ sQ gQ).
move=> r P W hP a k b ha hk hb; have hak := flat_lt ha hk.
pose A p := P (p %/ n)%N (p %% n)%N b.
have dm x y : (y < n)%N -> ((x * n + y) %/ n = x)%N /\ ((x * n + y) %% n = y)%N.
  by move=> hy; rewrite divnMDl ?divn_small ?addn0 ?modnMDl ?modn_small //; clear -hy; lia.
have eA i : (i < l1 * n)%N -> A i = \sum_(0 <= c < l) get Q0 [:: i; c] * (\sum_(0 <= e < l) get R0 [:: c; e] * W e b).
  move=> hi; have n0 : (0 < n)%N by clear -hk; lia.
  have h1 : (i %/ n < l1)%N by rewrite ltn_divLR.
  have h2 : (i %% n < n)%N by rewrite ltn_mod.
  rewrite /A hP // -divn_eq.
  under [RHS]eq_bigr => c _ do rewrite big_distrr.
  rewrite exchange_big_nat; apply: eq_big_nat => e he /=; rewrite (eQ i e) // big_distrl.
  by apply: eq_bigr => c _ /=; rewrite mulrA.
have := qr_proj oQ eA hak; rewrite /A; have [-> ->] := dm a k hk => <-.
apply: eq_big_nat => c hc; rewrite gQ; congr (_ * _); rewrite sum_nat_mul.
apply: eq_big_nat => a' _; apply: eq_big_nat => k' hk'; rewrite gQ.
by have [-> ->] := dm a' k' hk'.
Qed.

Lemma hmt_stepE P l1 n r : nwf P -> nshape P = [:: l1; n; r] -> (r <= l1 * n)%N ->
  or_linalg (orth_step lstsq qr P None) (fun Q => [/\ nwf Q, nshape Q = [:: l1; n; r], left_orth Q &
    reproj Q (fun a k b => get P [:: a; k; b]) l1 n r r]).
Proof.
move=> wP sP hr; rewrite /orth_step /dim sP /=.
have [M -> [hM gM]] := unfoldL wP sP; rewrite [bind (Ok M) _]/=.
apply: or_imp (orth_coreE hM hr) _ => Q [wQ sQ oQ eQ]; split=> //.
apply: (eQ r _ (fun c b => (b == c)%:R)) => a k b ha hk hb; rewrite -gM.
rewrite -[LHS](@sum_nat_delta R r b (fun c => get M [:: (a * n + k)%N; c])) //.
by apply: eq_bigr => c _; rewrite mulrC eq_sym.
Qed.

(* what the orthogonal step guarantees: the columns of Q span the columns of a least squares
   solution Sm of  Sm W = P *)
Definition orth_spec (W P Q : arr) (l1 n r l : nat) : Prop := exists Sm : nat -> nat -> nat -> R,
  (forall a k i, (a < l1)%N -> (k < n)%N -> (i < l)%N ->
     \sum_(0 <= b < r) get W [:: i; b] * (\sum_(0 <= q < l) get W [:: q; b] * Sm a k q - get P [:: a; k; b]) = 0) /\
  forall r' (P' : nat -> nat -> nat -> R) (V : nat -> nat -> R),
      (forall a k b, (a < l1)%N -> (k < n)%N -> (b < r')%N ->
         P' a k b = \sum_(0 <= c < l) Sm a k c * V c b) -> reproj Q P' l1 n l r'.

Lemma orth_stepS P W l1 n r l : nwf P -> nshape P = [:: l1; n; r] -> nwf W -> nshape W = [:: l; r] ->
  (0 < l1)%N -> (0 < n)%N -> (0 < r)%N -> (0 < l)%N -> (l <= l1 * n)%N ->
  or_linalg (orth_step lstsq qr P (Some W)) (fun Q => [/\ nwf Q, nshape Q = [:: l1; n; l], left_orth Q &
    orth_spec W P Q l1 n r l]).
Proof.
move=> wP sP wW sW p1 p2 p3 p4 hr; rewrite /orth_step /dim sP sW /=.
have [M -> [[wM sM] gM]] := unfoldL wP sP; rewrite [bind (Ok _) _]/= /right_mul_pinv.
have tW : is_mat (tr W) r l by split; [exact: nwf_tab|rewrite (nshape_tr sW)].
have tM : is_mat (tr M) r (l1 * n) by split; [exact: nwf_tab|rewrite (nshape_tr sM)].
have := @hl _ _ _ _ _ tW tM p3 p4; rewrite muln_gt0 p1 p2 => /(_ isT).
case: (lstsq _ _) => // S0 [[wS sS] eS]; rewrite [bind (bind _ _) _]/=.
have tS : is_mat (tr S0) (l1 * n) l by split; [exact: nwf_tab|rewrite (nshape_tr sS)].
apply: or_imp (orth_coreE tS hr) _ => Q [wQ sQ oQ eQ]; split=> //.
exists (fun a k q => get S0 [:: q; (a * n + k)%N]); split=> [a k i ha hk hi|r' P' V hP'].
  have hak := flat_lt ha hk.
  rewrite -[RHS](eS i (a * n + k)%N hi hak); apply: eq_big_nat => b' hb'; rewrite (get_tr sW) //.
  congr (_ * (_ - _)); last by rewrite (get_tr sM) // gM.
  by apply: eq_big_nat => q hq; rewrite (get_tr sW).
apply: (eQ r' _ V) => a k b ha hk hb; rewrite hP' //; have hak := flat_lt ha hk.
by apply: eq_big_nat => c hc; rewrite (get_tr sS).
Qed.

Lemma orth_spec_exact W P Q l1 n r l : orth_spec W P Q l1 n r l ->
    forall N : nat -> nat -> nat -> R, (forall a k b, (a < l1)%N -> (k < n)%N -> (b < r)%N ->
      get P [:: a; k; b] = \sum_(0 <= c < l) N a k c * get W [:: c; b]) ->
    reproj Q (fun a k b => get P [:: a; k; b]) l1 n l r.
Proof.
move=> [Sm [ne eQ]] N hN.
apply: (eQ r _ (fun c b => get W [:: c; b])) => a k b ha hk hb.
rewrite -(@lsq_exact R r l (fun b q => get W [:: q; b]) (Sm a k) (fun q => N a k q)
     (fun b => get P [:: a; k; b]) _ _ b hb).
- by apply: eq_big_nat => c hc; rewrite mulrC.
- by move=> b' hb'; rewrite hN //; apply: eq_bigr => q _; rewrite mulrC.
move=> i hi; exact: ne.
Qed.
End Step.
