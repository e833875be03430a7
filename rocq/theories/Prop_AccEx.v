(* Property C54: a concrete sketch that does not recover the array and meets the hypotheses. *)
From Coq Require Import String Ascii NArith.
From mathcomp Require Import all_ssreflect all_algebra.
From mathcomp Require Import zify.
From Verif Require Import Py Nd NdThy Ein Utils Tensor Hash Sketch Spec LinSpec ChainThy TensorThy TensorThy2 SweepThy SkSpec SkThy12 RecSpec RecThy2 LinExist Prop_Sketch Prop_Recovery Prop_Orth AccSpec AccThy2 AccThy3 AccThy4 Prop_Acc.
Set Implicit Arguments. Unset Strict Implicit. Unset Printing Implicit Defensive.
Import GRing.Theory Num.Theory Order.POrderTheory.
Local Open Scope ring_scope.

Section Ex.
Variable R : rcfType.
Variable to_normal : N -> R.
(* the 2 x 2 identity, a left DRM with the single column (1,0), a right DRM with two columns *)
Definition ax : nd R := Nd [:: 2; 2]%N [:: 1; 0; 0; 1].
Definition Dx : drm R := Drm DenseGaussianDRM [:: 2; 2]%N false [:: 1]%N [:: 0]%N [:: 1]%N [:: 1]%N N0 [::] [:: Nd [:: 1; 2]%N [:: 1; 0]] [::].
Definition Ex : drm R := Drm DenseGaussianDRM [:: 2; 2]%N true [:: 2]%N [:: 0]%N [:: 2]%N [:: 2]%N N0 [::] [:: ax] [::].
Notation X := (Dense ax).
Notation gs := (general_sketch to_normal (@lstsq0 R) (@qr0 R)).

Lemma ex_args : [/\ wf X, pair_ok Dx Ex [:: 2; 2]%N, fits Dx 1 X, fits Ex 1 X & order_ok true X].
Proof. by split=> //; split=> //; split=> //=; split=> //; case. Qed.
Lemma ex_rank mu : (mu < 1)%N -> \rank (om_mx to_normal true Dx Ex [:: 2; 2]%N (get ax) mu) = drm_cols Dx mu.
Proof.
case: mu => [|//] _; rewrite /om_mx /lmat /rmat -omega_mx.
rewrite /drm_cols [nth _ _ _]/= rank_rV; case: eqP => // /rowP/(_ 0) /eqP.
rewrite !mxE /Omega_of /= /left_fun /right_fun /drm_entry /= !big_nat_recr //= !big_geq //=.
by rewrite /get /= !(mulr0, mul0r, mulr1, mul1r, addr0, add0r) oner_eq0.
Qed.
Lemma ex_in i j : (i < 2)%N -> (j < 2)%N -> inb [:: 2; 2]%N [:: i; j].
Proof. by move=> h h'; rewrite /= h h'. Qed.

(* the assembled train is not the identity, and C54 applies to it *)
Example C54_nonvacuous : exists2 c, gs X (Some Dx) Ex Streaming = Ok c &
  or_linalg (assemble (@lstsq0 R) c DirRight) (gives (fun y =>
    acc_right to_normal true Dx Ex [:: 2; 2]%N (get ax) y /\ get y [:: 1; 1]%N <> get ax [:: 1; 1]%N)).
Proof.
have [w hp fD fE oX] := ex_args.
have [c ec _] := gs_isk to_normal (@lstsq0 R) (@qr0 R) (wf_gen_rep w) (isT : (1 < size (tshape X))%N) hp fD fE oX.
exists c => //.
apply: or_imp (@C54_stream_right R to_normal _ _ (@lstsq0P R) true X ax Dx Ex c w erefl isT hp fD fE oX isT isT isT ec (fun mu hm => ex_rank hm)) _.
move=> cs [y ey h]; exists y => //; split=> //; case: h => gy _.
have := gy [:: 1; 1]%N isT; rewrite [foldr _ _ _]/= /obl_left /lmat.
set Z := _ *m pinv_row _ => e.
pose z i q : R := mfun Z^T q i.
have hZ p q : Z p q = z (unravel (take 1 [:: 2; 2]%N) p) q by rewrite /z -(mfunE (Z^T) q p) [RHS]mxE.
have := @act_leftE R [:: 2; 2]%N 0 _ Z (left_fun to_normal Dx 0) z (get ax) [:: 1%N] [:: 1%N] hZ isT isT isT.
rewrite [_ ++ _]/= -e /= big_nat1 !big_nat_recr //= !big_geq //= /left_fun /drm_entry /= /get /=.
by rewrite !(mulr0, mul0r, mulr1, mul1r, addr0, add0r) => ->; apply/eqP; rewrite eq_sym oner_eq0.
Qed.
End Ex.
