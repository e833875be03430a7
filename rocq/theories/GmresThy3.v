(* Invariant of the loop of tt_sum_gmres. *)
From Coq Require Import String Ascii NArith.
From mathcomp Require Import all_ssreflect all_algebra.
From mathcomp Require Import zify.
From Verif Require Import Py Nd Utils Tensor TensorNum Sketch Mpo Gmres Spec LinSpec RecSpec RoundSpec SkSpec MpoSpec GmresSpec ArnSpec.
From Verif Require Import NdThy Ein MatThy TensorThy TensorThy2 TensorThy3 ChainThy DotThy NormThy SweepThy RoundThy RoundThy2 TrimThy SkThy1 SkThy2 SkThy10 SkThy14
  RecThy3 PrecThy Prop_Mpo Prop_Prec GmresThy1 RoundSumThy Prop_Num Prop_Orth Prop_RoundSum GmresThy2 GmresMath ArnThy.
Set Implicit Arguments. Unset Strict Implicit. Unset Printing Implicit Defensive.
Import GRing.Theory Num.Theory Order.POrderTheory.
Local Open Scope ring_scope.

(* a result satisfying P or an error in E *)
Definition okor (E : exn -> Prop) (A : Type) (r : res A) (P : A -> Prop) : Prop :=
  match r with Ok a => P a | Err e => E e end.
Lemma okor_bind E (A B : Type) (x : res A) (f : A -> res B) (P : A -> Prop) (Q : B -> Prop) :
  okor E x P -> (forall a, P a -> okor E (f a) Q) -> okor E (bind x f) Q.
Proof. by case: x => [a|e] //= h; apply. Qed.
Lemma okor_bind_eq E (A B : Type) (x : res A) (f : A -> res B) (P : A -> Prop) (Q : B -> Prop) :
  okor E x P -> (forall a, x = Ok a -> P a -> okor E (f a) Q) -> okor E (bind x f) Q.
Proof. by case: x => [a|e] //= h; apply. Qed.
Lemma okor_linalg (E : exn -> Prop) (A : Type) (x : res A) P : E LinAlgError -> or_linalg x P -> okor E x P.
Proof. by move=> hE; case: x => //= e ->. Qed.
Lemma okor_imp E (A : Type) (x : res A) (P Q : A -> Prop) : okor E x P -> (forall a, P a -> Q a) -> okor E x Q.
Proof. by case: x => //= a h; apply. Qed.

(* errors of a run of GMRES on valid input: LinAlgError of a routine, ValueError for a singular
   small system, values that are not finite *)
Definition gmres_err (e : exn) : Prop := e = LinAlgError \/ e = ValueError \/ e = NonFinite.

Section G.
Variable R : rcfType.
Notation arr := (nd R).
Notation tensor := (tensor R).
Notation allpos := (all (fun n => 0 < n)%N).
Variables (qr : arr -> res (arr * arr)) (svd : arr -> res (arr * arr * arr)).
Variable to_normal : N -> R.
Variable tt_random : seq nat -> seq nat -> N -> seq arr.
Variable stream : N -> nat -> R.
Variable offset : N -> nat -> N.
Variable right_seed_of : N -> nat -> N.
Variable lstsq : arr -> arr -> res arr.
Variable qr_econ : arr -> res (arr * arr).
Variables (solve_tri : arr -> arr -> res arr) (np_lstsq : arr -> arr -> res (arr * seq R)).
Variable ent : nat -> nat -> N.
Hypotheses (qrP : qr_tri_contract qr) (svdP : svd_contract svd) (solP : solve_tri_contract solve_tri) (nplP : np_lstsq_contract np_lstsq).
Hypotheses (lstsqP : lstsq_contract lstsq) (qr_econP : qr_contract qr_econ) (rndP : tt_random_ok tt_random).
Notation round_tt_sum := (round_tt_sum qr svd to_normal tt_random stream offset right_seed_of lstsq qr_econ).
Notation round_call := (round_call qr svd to_normal tt_random stream offset right_seed_of lstsq qr_econ ent).

(* ---- one rounding ---- *)
Definition method_ok (m : rounding) (s rk : seq nat) : Prop :=
  match m with
  | RExact | RPairwise => True
  | RSketch => allpos rk
  | ROrthSketch => allpos rk /\ (size s <= 102)%N
  | _ => False
  end.

Lemma within_train s rk (X : tensor) : allpos s -> within s rk X -> pos_train s X.
Proof.
move=> hs hw; case: (hw) => cs eX [w e _ _]; rewrite eX in hw *; apply/pos_trainP; exists cs => //.
by split=> //; exact: within_pos hs hw.
Qed.

Lemma round_ok n s X max_rank rk eps m : pos_sum s X -> (1 < size s)%N -> process_tt_rank max_rank s false = Ok rk ->
  method_ok m s rk -> or_linalg (round_call n X max_rank eps m) (pos_train s).
Proof.
move=> pX s1 hp hm; have hs := sum_allpos pX; rewrite /Gmres.round_call.
have [wX sX] := train_sum_wf (pos_sum_train pX); have [x ex _] := to_numpyE wX.
case: m hm => //= hm.
- apply: or_imp (C44_exact to_normal tt_random stream offset right_seed_of lstsq qr_econ (proj1 qrP) svdP (ent n) eps (2, 1)%N pX s1 hp ex) _ => Y [hw _].
  exact: within_train hw.
- case/pos_sumP: (pX) => Xs eX [nX hX]; case: Xs eX nX hX => [|X0 [|X1 Xs]] // eX _ hX.
    by rewrite eX; case/andP: hX => /pos_trainP[cs eX0 hcs] _; rewrite eX0 /or_linalg; apply/pos_trainP; exists cs.
  apply: or_imp (C44_pairwise to_normal tt_random stream offset right_seed_of lstsq qr_econ (proj1 qrP) svdP (ent n) eps (2, 1)%N eX pX isT s1 hp) _ => Y hw.
  exact: within_train hw.
- have [h _] := C44_sketch qr svd to_normal stream offset right_seed_of qr_econ lstsqP rndP (ent n) eps pX s1 (isT : (0 < 1 < 2)%N) hp hm ex.
  apply: or_imp h _ => Y hw; exact: within_train hw.
- have s2 : (1 < size s <= 102)%N by rewrite s1 hm.2.
  apply: or_imp (C44_orth_sketch qr svd to_normal stream offset right_seed_of lstsqP qr_econP rndP (ent n) eps pX s2 (isT : (0 < 1 < 2)%N) hp hm.1 ex) _ => Y [hw _].
  exact: within_train hw.
Qed.
End G.
