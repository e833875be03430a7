(* Proofs about the QR/SVD sweeps: orthogonalize (tensor.py:559-572). *)
From Coq Require Import String Ascii.
From mathcomp Require Import all_ssreflect all_algebra.
From mathcomp Require Import zify.
From Verif Require Import Py Nd NdThy Ein Utils Tensor Spec LinSpec ChainThy TensorThy TensorNum.
Set Implicit Arguments. Unset Strict Implicit. Unset Printing Implicit Defensive.
Import GRing.Theory Num.Theory.
Local Open Scope ring_scope.

Lemma flat_lt r n a x : (a < r)%N -> (x < n)%N -> (a * n + x < r * n)%N.
Proof.
move=> ha hx; apply: (@leq_trans (a.+1 * n)%N); first by rewrite mulSn; lia.
by rewrite leq_mul2r ha orbT.
Qed.
Lemma or_bind (A B : Type) (x : res A) (f : A -> res B) (P : A -> Prop) (Q : B -> Prop) :
  or_linalg x P -> (forall a, P a -> or_linalg (f a) Q) -> or_linalg (bind x f) Q.
Proof. by case: x => [a|e] /= H HQ; [exact: HQ | exact: H]. Qed.
Lemma or_imp (A : Type) (x : res A) (P Q : A -> Prop) :
  or_linalg x P -> (forall a, P a -> Q a) -> or_linalg x Q.
Proof. by case: x => [a|e] //= H HQ; exact: HQ. Qed.

Section Sweep.
Variable R : rcfType.
Notation arr := (nd R).
Implicit Types (C M Q : arr) (cs : seq arr).

Lemma sum_assoc (K J M : nat) (A : nat -> R) (B D : nat -> nat -> R) (E : nat -> R) :
  \sum_(0 <= l < K) A l * (\sum_(0 <= m < M) (\sum_(0 <= j < J) B l j * D j m) * E m) =
  \sum_(0 <= j < J) (\sum_(0 <= l < K) A l * B l j) * (\sum_(0 <= m < M) D j m * E m).
Proof.
under [RHS]eq_bigr => j _ do rewrite big_distrl /=.
rewrite [RHS]exchange_big /=; apply: eq_bigr => l _.
under [RHS]eq_bigr => j _ do rewrite -mulrA.
rewrite -big_distrr /=; congr (_ * _).
under eq_bigr => m _ do rewrite big_distrl /=.
rewrite exchange_big /=; apply: eq_bigr => j _.
by rewrite big_distrr /=; apply: eq_bigr => m _; rewrite mulrA.
Qed.

Lemma dim3 C a n b : nshape C = [:: a; n; b] -> [/\ dim C 0 = a, dim C 1 = n & dim C 2 = b].
Proof. by rewrite /dim => ->. Qed.

Lemma ravL r0 n r a k b : ravel [:: (r0 * n)%N; r] [:: (a * n + k)%N; b] = ravel [:: r0; n; r] [:: a; k; b].
Proof. by rewrite /= !muln1 !addn0 mulnDl mulnA addnA. Qed.
Lemma ravR r0 n r a k b : ravel [:: r0; (n * r)%N] [:: a; (k * r + b)%N] = ravel [:: r0; n; r] [:: a; k; b].
Proof. by rewrite /= !muln1 !addn0. Qed.

Lemma unfoldL C r0 n r : nwf C -> nshape C = [:: r0; n; r] ->
  exists2 M, reshape C [:: (r0 * n)%N; r] = Ok M &
    is_mat M (r0 * n) r /\ forall a k b, get M [:: (a * n + k)%N; b] = get C [:: a; k; b].
Proof.
move=> wC sC; have P : prods [:: (r0 * n)%N; r] = prods (nshape C) by rewrite sC /= !muln1 mulnA.
have [M -> [wM sM gM]] := reshape_spec wC P; exists M => //; split=> // a k b.
by apply: gM; rewrite sC ravL.
Qed.

Lemma unfoldR C r0 n r : nwf C -> nshape C = [:: r0; n; r] ->
  exists2 M, reshape C [:: r0; (n * r)%N] = Ok M &
    is_mat M r0 (n * r) /\ forall a k b, get M [:: a; (k * r + b)%N] = get C [:: a; k; b].
Proof.
move=> wC sC; have P : prods [:: r0; (n * r)%N] = prods (nshape C) by rewrite sC /= !muln1.
have [M -> [wM sM gM]] := reshape_spec wC P; exists M => //; split=> // a k b.
by apply: gM; rewrite sC ravR.
Qed.

Lemma foldL Q r0 n r : is_mat Q (r0 * n) r ->
  exists2 C, reshape Q [:: r0; n; r] = Ok C &
    [/\ nwf C, nshape C = [:: r0; n; r] &
     forall a k b, get C [:: a; k; b] = get Q [:: (a * n + k)%N; b]].
Proof.
case=> wQ sQ; have P : prods [:: r0; n; r] = prods (nshape Q) by rewrite sQ /= !muln1 mulnA.
have [C -> [wC sC gC]] := reshape_spec wQ P; exists C => //; split=> // a k b.
by apply: gC; rewrite sQ ravL.
Qed.

Lemma foldR Q r0 n r : is_mat Q r0 (n * r) ->
  exists2 C, reshape Q [:: r0; n; r] = Ok C &
    [/\ nwf C, nshape C = [:: r0; n; r] &
     forall a k b, get C [:: a; k; b] = get Q [:: a; (k * r + b)%N]].
Proof.
case=> wQ sQ; have P : prods [:: r0; n; r] = prods (nshape Q) by rewrite sQ /= !muln1.
have [C -> [wC sC gC]] := reshape_spec wQ P; exists C => //; split=> // a k b.
by apply: gC; rewrite sQ ravR.
Qed.

Lemma infer_last Q r0 n r : nshape Q = [:: (r0 * n)%N; r] -> (0 < r0 * n)%N ->
  reshape_infer Q [:: r0; n] [::] = reshape Q [:: r0; n; r].
Proof.
move=> sQ P; rewrite /reshape_infer sQ /= !muln1 (gtn_eqF P).
by rewrite dvdn_mulr // mulKn.
Qed.

Lemma ocols_left_orth Q C r0 n r : ocols Q (r0 * n) r -> nshape C = [:: r0; n; r] ->
  (forall a k b, get C [:: a; k; b] = get Q [:: (a * n + k)%N; b]) -> left_orth C.
Proof.
move=> oQ sC gC b c; rewrite /left_orth; have [-> -> ->] := dim3 sC => hb hc.
rewrite -(oQ b c hb hc) sum_nat_mul.
by apply: eq_bigr => a _; apply: eq_bigr => k _; rewrite !gC.
Qed.

Lemma orows_right_orth Q C r0 n r : orows Q r0 (n * r) -> nshape C = [:: r0; n; r] ->
  (forall a k b, get C [:: a; k; b] = get Q [:: a; (k * r + b)%N]) -> right_orth C.
Proof.
move=> oQ sC gC b c; rewrite /left_orth; have [-> -> ->] := dim3 sC => hb hc.
rewrite -(oQ b c hb hc) sum_nat_mul.
by apply: eq_bigr => a _; apply: eq_bigr => k _; rewrite !gC.
Qed.

(* ------------------------------------------------------------------ *)
Variable qr : arr -> res (arr * arr).
Hypothesis qrP : qr_contract qr.

(* the loop body of orthogonalize after the multiplication by R *)
Definition orth_body C1 cs : res (seq arr) :=
  if nilp cs then Ok [:: C1] else
  do Cm <- reshape C1 [:: (dim C1 0 * dim C1 1)%N; dim C1 2];
  do QR <- qr Cm;
  do Q <- reshape_infer QR.1 [:: dim C1 0; dim C1 1] [::];
  do rest <- tt_orth_loop qr (Some QR.2) cs;
  Ok (Q :: rest).

Lemma orth_loopN C cs : tt_orth_loop qr None (C :: cs) = orth_body C cs. Proof. by []. Qed.
Lemma orth_loopS Rm C cs : tt_orth_loop qr (Some Rm) (C :: cs) =
  (do C1 <- einsum "ij,jkl->ikl" [:: Rm; C]; orth_body C1 cs).
Proof. by []. Qed.

Definition modes cs : seq nat := [seq dim C 1 | C <- cs].
Definition rdims cs : seq nat := [seq dim C 2 | C <- cs].

Definition orth_post C1 cs (r0 : nat) (out : seq arr) : Prop :=
  [/\ links r0 out 1, modes out = modes (C1 :: cs), all2 leq (rdims out) (rdims (C1 :: cs)),
      all_but_last (fun C => left_orth C /\ (dim C 2 <= dim C 0 * dim C 1)%N) out
      /\ pos_tt out &
      forall i a, inb (modes out) i -> (a < r0)%N -> chain out i a 0 = chain (C1 :: cs) i a 0].

Lemma orth_bodyP cs C1 r0 : (0 < r0)%N -> links r0 (C1 :: cs) 1 -> pos_tt (C1 :: cs) ->
  or_linalg (orth_body C1 cs) (orth_post C1 cs r0).
Proof.
elim: cs C1 r0 => [|C cs IH] C1 r0 r0p L P; rewrite /orth_body /=.
  split=> //; first by rewrite /= leqnn.
move: (L) => /= /and3P[wC1 /eqP sC1 /and3P[wC /eqP sC Lr]].
move: (P) => /= /andP[/andP[np rp] /andP[/andP[n'p r'p] Pr]].
set n := dim C1 1 in sC1 np *; set r := dim C1 2 in sC1 rp sC *.
have d0 : dim C1 0 = r0 by rewrite /dim sC1.
rewrite d0; have [M -> [mM gM]] := unfoldL wC1 sC1; rewrite [bind _ _]/=.
apply: (or_bind (qrP mM)) => -[Q Rm] /= [mQ mR oQ gQR].
have knp : (0 < r0 * n)%N by rewrite muln_gt0 r0p.
set k := minn _ _ in mQ mR oQ gQR; have kp : (0 < k)%N by rewrite /k leq_min knp.
rewrite (infer_last mQ.2 knp); have [C' -> [wC' sC' gC']] := foldL mQ; rewrite [bind _ _]/=.
rewrite (es_ij_jkl mR.2 sC) [bind (Ok _) _]/=.
set C2 := tab3 _ _ _ _; have wC2 : nwf C2 := nwf_tab3 _ _ _ _.
have sC2 : nshape C2 = [:: k; dim C 1; dim C 2] by [].
have [e20 e21 e22] := dim3 sC2.
have L2 : links k (C2 :: cs) 1 by rewrite /= wC2 e21 e22 eqxx.
have P2 : pos_tt (C2 :: cs) by rewrite /= e21 e22 n'p r'p.
apply: (or_bind (IH C2 k kp L2 P2)) => out [Lo Mo Ro [Ao Po] Go] /=.
have [e0 e1 e2] := dim3 sC'.
split.
- by rewrite /= wC' sC' e1 e2 eqxx.
- by rewrite /= e1 Mo /= e21.
- by rewrite /= e2 geq_minr /=; rewrite /= e22 in Ro.
- split; last by rewrite /= e1 e2 np kp.
  case=> [|j] /= hj; last exact: Ao.
  split; first exact: ocols_left_orth oQ sC' gC'.
  by rewrite e0 e1 e2 geq_minl.
- move=> [|x i] a //=; rewrite e1 => /andP[hx hi] ha.
  rewrite e2; under eq_big_nat => l hl do rewrite (Go _ _ hi) //= gC'.
  rewrite e22; case: i hi => [|y i]; first by rewrite Mo.
  rewrite Mo /= e21 => /andP[hy hi].
  under eq_big_nat => l hl.
    under eq_big_nat => m hm do rewrite get_tab3 //.
  over.
  rewrite /= (sum_assoc _ _ _ (fun l => get Q [:: (a * n + x)%N; l]) (fun l j => get Rm [:: l; j])
     (fun j m => get C [:: j; y; m]) (fun m => chain cs i m 0)).
  apply: eq_big_nat => l hl; congr (_ * _); rewrite -gM gQR //.
  exact: flat_lt.
Qed.

End Sweep.
