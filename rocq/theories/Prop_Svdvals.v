(* C52: TensorTrain.svdvals.  qr and svd stand for numpy.linalg.qr / svd with the contracts of
   LinSpec.v; [singular_values] is defined in SvSpec.v, [unfolding] in RecSpec.v. *)
From Coq Require Import String Ascii NArith.
From mathcomp Require Import all_ssreflect all_algebra.
From mathcomp Require Import zify.
From Verif Require Import Py Nd NdThy Ein Utils Tensor Spec LinSpec ChainThy MatThy TensorThy TensorThy2.
From Verif Require Import TensorThy4 GatherThy DotThy TrimThy TensorNum SweepThy NormThy RoundSpec RoundThy EYThy RoundOpt.
From Verif Require Import Sketch SkSpec RecSpec SvSpec SvThy RankThy LinExist Prop_LinEx.
Set Implicit Arguments. Unset Strict Implicit. Unset Printing Implicit Defensive.
Import GRing.Theory Num.Theory Order.TTheory.
Local Open Scope ring_scope.

(* the ranks after a left-to-right QR sweep, p being the rank to the left *)
Fixpoint orth_ranks (p : nat) (shape ranks : seq nat) : seq nat :=
  match shape, ranks with
  | n :: shape', r :: ranks' => let q := minn (p * n) r in q :: orth_ranks q shape' ranks'
  | _, _ => [::]
  end.
(* every rank is at most (next mode size) * (next rank); the rank after the last core is 1 *)
Definition ranks_fit (shape ranks : seq nat) : Prop :=
  forall k, (k < size ranks)%N -> (nth 0 ranks k <= nth 0 shape k.+1 * nth 1 ranks k.+1)%N.

Section Core.
Variable R : rcfType.
Notation arr := (nd R).
Implicit Types (C : arr) (ls cs : seq arr).
Variable qr : arr -> res (arr * arr).
Hypothesis qrP : qr_contract qr.

Lemma orth_body_ranks cs C1 r0 out : (0 < r0)%N -> links r0 (C1 :: cs) 1 -> pos_tt (C1 :: cs) ->
  orth_body qr C1 cs = Ok out -> tt_rank out = orth_ranks r0 (modes (C1 :: cs)) (tt_rank (C1 :: cs)).
Proof.
move=> r0p L P; have Q := orth_bodyP qrP r0p L P.
elim: cs C1 r0 out r0p L P Q => [|C cs IH] C1 r0 out r0p L P Q; rewrite /orth_body /=.
  by case=> <-.
move: (L) => /= /and3P[wC1 /eqP sC1 /and3P[wC /eqP sC Lr]].
move: (P) => /= /andP[/andP[np rp] /andP[/andP[n'p r'p] Pr]].
set n := dim C1 1 in sC1 np *; set r := dim C1 2 in sC1 rp sC *.
have d0 : dim C1 0 = r0 by rewrite /dim sC1.
rewrite d0; have [M -> [mM gM]] := unfoldL wC1 sC1; rewrite [bind (Ok M) _]/=.
have := qrP mM; case: (qr M) => [[Q' Rm]|e] // [/= mQ mR oQ _].
have knp : (0 < r0 * n)%N by rewrite muln_gt0 r0p.
set k := minn _ _ in mQ mR oQ; have kp : (0 < k)%N by rewrite /k leq_min knp.
rewrite (infer_last mQ.2 knp); have [C' -> [wC' sC' gC']] := foldL mQ; rewrite [bind (Ok C') _]/=.
rewrite (es_ij_jkl mR.2 sC) [bind (Ok _) _]/=.
set C2 := tab3 _ _ _ _; have wC2 : nwf C2 := nwf_tab3 _ _ _ _.
have sC2 : nshape C2 = [:: k; dim C 1; dim C 2] by [].
have [e20 e21 e22] := dim3 sC2.
have L2 : links k (C2 :: cs) 1 by rewrite /= wC2 e21 e22 eqxx.
have P2 : pos_tt (C2 :: cs) by rewrite /= e21 e22 n'p r'p.
have Q2 := orth_bodyP qrP kp L2 P2.
rewrite -/(orth_body qr C2 cs); case E : (orth_body qr C2 cs) Q2 => [o|e] // Q2 [<-].
have := IH C2 k o kp L2 P2; rewrite E => /(_ Q2 erefl); case: Q2 => Lo Mo _ _ _.
case: o Lo Mo {E} => [|O o] // Lo Mo; rewrite /tt_rank /= => ->.
have [f0 _ _] := dim3 sC; have -> : dim O 0 = k by move: Lo => /= /and3P[_ /eqP sO _]; rewrite /dim sO.
by rewrite f0 e21.
Qed.

Lemma orth_ranksP cs tt1 : wf_tt cs -> pos_tt cs -> tt_orthogonalize qr cs = Ok tt1 ->
  tt_rank tt1 = orth_ranks 1 (tshape (TT cs)) (tt_rank cs).
Proof. by case: cs => [|C cs] // /andP[_ L] P; rewrite /tt_orthogonalize orth_loopN; exact: orth_body_ranks. Qed.

Lemma fit_cores cs : wf_tt cs -> pos_tt cs -> ranks_fit (tshape (TT cs : tensor R)) (tt_rank cs) <-> all (fun C => fitC C) cs.
Proof.
case/andP => ne L P; have s0 : (0 < size cs)%N by case: (cs) ne.
have d2E k : (k < size cs)%N -> dim (nth (Nd [::] [::]) cs k) 2 = nth 1%N (tt_rank cs) k.
  move=> hk; case: (ltnP k.+1 (size cs)) => h.
    by rewrite -(tt_rank_nth L h); apply: set_nth_default; rewrite size_tt_rank; move: h; case: (size cs).
  rewrite [RHS]nth_default; last by rewrite size_tt_rank; move: h; case: (size cs).
  case/lastP: (cs) L hk h => [|l C] // /links_rcons[r [_ _ sC]]; rewrite size_rcons ltnS => h1; rewrite ltnS => h2.
  by rewrite nth_rcons ltnNge h2 /= eqn_leq h1 h2 /= /dim sC.
have d0E k : (k.+1 < size cs)%N -> dim (nth (Nd [::] [::]) cs k.+1) 0 = nth 0%N (tt_rank cs) k.
  by move=> h; rewrite (tt_rank_nth L h) (RoundThy.links_nth L h).
have d1E k : (k < size cs)%N -> dim (nth (Nd [::] [::]) cs k) 1 = nth 0%N (tshape (TT cs : tensor R)) k.
  by move=> h; rewrite /= (nth_map (Nd [::] [::])).
split=> [F|/(all_nthP (Nd [::] [::])) F].
  apply/(all_nthP (Nd [::] [::])) => -[|k] hk; rewrite /fitC.
    have := P; rewrite /pos_tt => /(all_nthP (Nd [::] [::]))/(_ 0%N hk)/andP[h1 h2].
    by case: (cs) hk L h1 h2 => //= C l _ /and3P[_ /eqP sC _] h1 h2; rewrite {1}/dim sC /= muln_gt0 h1.
  by rewrite d0E // d1E // d2E //; apply: F; rewrite size_tt_rank; clear -hk; lia.
move=> k; rewrite size_tt_rank => hk; have hk' : (k.+1 < size cs)%N by clear -hk; lia.
by have := F k.+1 hk'; rewrite /fitC d0E // d1E // d2E.
Qed.
End Core.

(* When the ranks fit (every rank after orthogonalization is at most the size of the next core's
   (n * r)), svdvals() returns one array per mode: the array at position mu >= 1 holds the singular
   values of the unfolding at the bond between the modes 0..mu-1 and mu.., and the array at position
   0 those of the first bond again. *)
Theorem C52_svdvals (R : rcfType) qr svd (cs : seq (nd R)) :
  qr_contract qr -> svd_contract svd -> wf (TT cs) -> pos_tt cs ->
  ranks_fit (tshape (TT cs)) (orth_ranks 1 (tshape (TT cs)) (tt_rank cs)) ->
  or_linalg (tt_svdvals qr svd cs) (fun out => exists a, [/\ to_numpy (TT cs) = Ok a, size out = size (nshape a) &
    forall mu, (mu < size (nshape a))%N ->
      singular_values (unfolding (nshape a) (get a) mu.-1) (ndata (nth (Nd [::] [::]) out mu))]).
Proof.
move=> qrP svdP w p F; rewrite /tt_svdvals; have := orthogonalizeP qrP w p.
case E : (tt_orthogonalize qr cs) => [tt1|e] // [w1 S1 _ [A1 P1] G1]; rewrite [bind (Ok tt1) _]/=.
have [a Ea [wa sa ga]] := to_numpyE (w : wf (TT cs)).
move: F; rewrite -(orth_ranksP qrP w p E) -S1 => /(fit_cores w1 P1) F.
have sz1 : size tt1 = size cs by move/(f_equal size): S1; rewrite /= !size_map.
have sza : size (nshape a) = size tt1 by rewrite sa /= size_map sz1.
case/lastP: tt1 w1 S1 A1 P1 G1 F sza {E sz1} => [|ls C] // /andP[_ L] S1 A1 P1 G1 F sza.
have [r0 [Ll wC sC]] := links_rcons L.
have Pls : pos_tt ls /\ (0 < dim C 1)%N.
  by move: P1; rewrite /pos_tt all_rcons => /andP[/andP[-> _] ->].
have A1' : all_but_last (fun C => left_orth C) (rcons ls C) by move=> k /A1[].
rewrite vbN; have := @vbP R svd svdP (nshape a) (get a) ls C [::] r0 1 (fun _ b => (b == 0%N)%:R) Ll (abl_rcons A1') Pls.1 wC sC Pls.2 (ltn0Sn 0) F.
have sm : nshape a = modes (rcons ls C) by rewrite sa -S1.
rewrite cats0 -sm => /(_ erefl) H.
have {H} := H _ _; case: (vb svd ls C) => [out|e] //=; last first.
  move=> H; apply: H.
  - by move=> [|?] [|?] // _ _; rewrite /all_idx /= big_seq1 mul1r.
  by move=> i [|? ?] // hi _; rewrite cats0 big_nat1 mulr1 ga -?sa // -G1 // -sa.
move=> H; exists a; rewrite size_rev; case: H.
- by move=> [|?] [|?] // _ _; rewrite /all_idx /= big_seq1 mul1r.
- by move=> i [|? ?] // hi _; rewrite cats0 big_nat1 mulr1 ga -?sa // -G1 // -sa.
rewrite size_rcons in sza.
move=> so H; split=> //; first by rewrite so sza.
by move=> mu; rewrite sza ltnS => /H[k []].
Qed.

(* positions 0 and 1 hold the same values (with two or more modes) *)
Theorem C52_first_twice (R : rcfType) qr svd (cs : seq (nd R)) :
  qr_contract qr -> svd_contract svd -> wf (TT cs) -> pos_tt cs -> (1 < size cs)%N ->
  ranks_fit (tshape (TT cs)) (orth_ranks 1 (tshape (TT cs)) (tt_rank cs)) ->
  or_linalg (tt_svdvals qr svd cs) (fun out => forall t,
    nth 0 (ndata (nth (Nd [::] [::]) out 0)) t = nth 0 (ndata (nth (Nd [::] [::]) out 1)) t).
Proof.
move=> qrP svdP w p s2 F; have := C52_svdvals qrP svdP w p F; case: (tt_svdvals _ _ _) => [out|e] //= [a [Ea so H]].
have [a' Ea' [_ sa _]] := to_numpyE (w : wf (TT cs)).
have [ea] : Ok a = Ok a' := etrans (esym Ea) Ea'; rewrite -ea in sa.
have sz : size (nshape a) = size cs by rewrite sa /= size_map.
by apply: sv_unique (H 0%N _) (H 1%N _); rewrite sz // ltnW.
Qed.

(* the singular values are unique, so C52_svdvals determines them up to trailing zeros *)
Theorem C52_unique (R : rcfType) m n (M : 'M[R]_(m, n)) (s s' : seq R) :
  singular_values M s -> singular_values M s' -> forall t, nth 0 s t = nth 0 s' t.
Proof. exact: sv_unique. Qed.

(* When the ranks do not fit, U @ np.diag(S) has mismatched shapes: every call raises. *)
Theorem C52_misfit_raises (R : rcfType) qr svd (cs : seq (nd R)) :
  qr_contract qr -> svd_contract svd -> wf (TT cs) -> pos_tt cs ->
  ~ ranks_fit (tshape (TT cs)) (orth_ranks 1 (tshape (TT cs)) (tt_rank cs)) ->
  tt_svdvals qr svd cs = Err ValueError \/ tt_svdvals qr svd cs = Err LinAlgError.
Proof.
move=> qrP svdP w p F; rewrite /tt_svdvals; have := orthogonalizeP qrP w p.
case E : (tt_orthogonalize qr cs) => [tt1|[]] //; last by move=> _; right.
move=> [w1 S1 _ [A1 P1] G1]; rewrite [bind (Ok tt1) _]/=.
move: F; rewrite -(orth_ranksP qrP w p E) -S1 => F.
have {}F : ~~ all (fun C => fitC C) tt1 by apply/negP => h; apply: F; apply/(fit_cores w1 P1).
case/lastP: tt1 w1 S1 A1 P1 G1 F {E} => [|ls C] // /andP[_ L] S1 A1 P1 G1 F.
have [r0 [Ll wC sC]] := links_rcons L.
have Pls : pos_tt ls /\ (0 < dim C 1)%N.
  by move: P1; rewrite /pos_tt all_rcons => /andP[/andP[-> _] ->].
by rewrite vbN; case: (vb_misfit svdP Ll Pls.1 wC sC Pls.2 (ltn0Sn 0) F) => ->; [left|right].
Qed.
Print Assumptions C52_svdvals.
Print Assumptions C52_first_twice.
Print Assumptions C52_unique.
Print Assumptions C52_misfit_raises.

(* non-vacuity: a 2 x 3 x 2 train of ranks (1, 2) fits, one of ranks (2, 3) does not *)
From Verif Require Import Prop_Opt.
Example C52_fits (R : rcfType) : [/\ qr_contract (@qr0 R), svd_contract (@svd0 R), wf (TT (ex_ds R)), pos_tt (ex_ds R) &
  ranks_fit (tshape (TT (ex_ds R))) (orth_ranks 1 (tshape (TT (ex_ds R))) (tt_rank (ex_ds R)))].
Proof.
split; [by case: (@qr0P R)|exact: svd0P|by []|by []|].
by case=> [|[|k]].
Qed.
Example C52_misfit_example (R : rcfType) qr svd : qr_contract qr -> svd_contract svd ->
  tt_svdvals qr svd (ex_cs R) = Err ValueError \/ tt_svdvals qr svd (ex_cs R) = Err LinAlgError.
Proof. by move=> qrP svdP; apply: C52_misfit_raises => // /(_ 1%N isT). Qed.
