(* Non-vacuity of the theorems that assume contracts of LAPACK routines (Prop_Num.v,
   Prop_Recovery.v, Prop_Orth.v, Prop_Prec.v, Prop_RoundSum.v): with the routines of LinExist.v the
   hypotheses are met, over every real closed field, by concrete calls. *)
From Coq Require Import String Ascii NArith.
From mathcomp Require Import all_ssreflect all_algebra.
From mathcomp Require Import zify.
From Verif Require Import Py Nd NdThy Utils Tensor TensorNum Sketch Mpo Gmres Spec LinSpec RecSpec SkSpec MpoSpec GmresSpec.
From Verif Require Import NdThy Ein ChainThy MatThy TensorThy2 SweepThy RoundThy RoundSpec RoundThy2 PrecThy LinThy LinExist SkThy9 SkThy12.
From Verif Require Import Prop_Num Prop_Sketch Prop_Recovery Prop_Orth Prop_Prec.
Set Implicit Arguments. Unset Strict Implicit. Unset Printing Implicit Defensive.
Import GRing.Theory Num.Theory.
Local Open Scope ring_scope.

Section Ex.
Variable R : rcfType.
Notation arr := (nd R).

(* a 2 x 3 x 2 train of ranks (2, 3) *)
Definition ex_cs : seq arr :=
  [:: tab [:: 1; 2; 2]%N (fun i => (nth 0 i 1 + 2 * nth 0 i 2)%:R); tab [:: 2; 3; 3]%N (fun i => (nth 0 i 0 + 2 * nth 0 i 1 * nth 0 i 2)%:R);
      tab [:: 3; 2; 1]%N (fun i => (1 + nth 0 i 0 * nth 0 i 1)%:R)]%N.

Example C10_nonvacuous : exists2 a, to_numpy (TT ex_cs) = Ok a &
  or_linalg (tnorm (@qr0 R) 3 (TT ex_cs)) (fun v => v = Num.sqrt (sum_idx (nshape a) (fun i => get a i ^+ 2))).
Proof. by apply: C10_norm => //; case: (@qr0P R). Qed.

Example C12_nonvacuous : qr_contract (@qr0 R) /\ wf_tt ex_cs /\ pos_tt ex_cs.
Proof. by case: (@qr0P R). Qed.

(* rounding to rank (1, 2) with a tolerance *)
Example C13_C14_nonvacuous : [/\ qr_contract (@qr0 R), svd_contract (@svd0 R), round_args ex_cs (Some (RTuple [:: 1; 2]%N)) false &
  process_tt_rank (RTuple [:: 1; 2]%N) (tshape (TT ex_cs)) true = Ok [:: 1; 2]%N].
Proof.
split=> //; [by case: (@qr0P R)|exact: svd0P|].
by split=> //; exists [:: 1; 2]%N.
Qed.

(* the preconditioner with the matrix [[1, 2], [0, 4]] on the last mode *)
Definition ex_A : arr := Nd [:: 2; 2]%N [:: 1; 2%:R; 0; 4%:R].
Example C42_nonvacuous : exists p, prec_args (@qr0 R) p ex_A ex_cs [:: 2; 3; 2]%N 2 2 /\ amat ex_A 2 2 \in unitmx
  /\ qr_tri_contract (@qr0 R) /\ solve_tri_contract (@solve0 R).
Proof.
have mA : is_mat ex_A 2 2 by [].
have [QR eQR] := qr0_total mA.
exists (Precond ex_A QR.1 QR.2 2 [:: 2; 3; 2]%N); split; first by split=> //; rewrite /precond_new eQR.
split; last by split; [exact: qr0P|exact: solve0P].
rewrite upper_unit; last by case=> [|[|i]] [|[|j]] //= /andP[]; rewrite ?ltnS // => h; lia.
by rewrite /= /get /= oner_eq0 /= andbT pnatr_eq0.
Qed.

(* Sketching an n1 x n2 dense array with Gaussian DRMs whose matrices happen to be the identity:
   the rank conditions of C28 - C30 hold. *)
Section Ident.
Variables (a : arr) (n1 n2 : nat).
Hypotheses (ha : is_mat a n1 n2) (p1 : (0 < n1)%N) (p2 : (0 < n2)%N).
Variable to_normal : N -> R.

Definition idL : drm R := Drm DenseGaussianDRM [:: n1; n2] false [:: n1] [:: 0%N] [:: n1] [:: n1] N0 [::] [:: eye R n1] [::].
Definition idR : drm R := Drm DenseGaussianDRM [:: n1; n2] true [:: n2] [:: 0%N] [:: n2] [:: n2] N0 [::] [:: eye R n2] [::].
Notation X := (Dense a).
Notation gs := (general_sketch to_normal (@lstsq0 R) (@qr0 R)).

Lemma id_args : [/\ wf X, tshape X = [:: n1; n2], pair_ok idL idR (tshape X), fits idL 1 X /\ fits idR 1 X & order_ok true X].
Proof.
have [wa sa] := ha; rewrite /= sa; split=> //; last by rewrite /ndim sa.
split=> //; split=> //; split=> //=; case=> [|//] _; split; [exact: nwf_tab|by rewrite /= muln1|exact: nwf_tab|by rewrite /= muln1].
Qed.
Lemma geteye n i j : (i < n)%N -> (j < n)%N -> get (eye R n) [:: i; j] = (i == j)%:R.
Proof. by move=> hi hj; rewrite get_tab //= hi hj. Qed.
Lemma idLE i c : (i < n1)%N -> (c < n1)%N -> left_fun to_normal idL 0 [:: i] c = (c == i)%:R.
Proof. by move=> hi hc; rewrite /left_fun /drm_entry /= muln1 addn0 geteye. Qed.
Lemma idRE j c : (j < n2)%N -> (c < n2)%N -> gfam to_normal true idR [:: n1; n2] 0 [:: j] c = (c == j)%:R.
Proof. by move=> hi hc; rewrite /gfam /= /right_fun /drm_entry /= muln1 addn0 geteye. Qed.

Lemma id_omega i j : (i < n1)%N -> (j < n2)%N ->
  Omega_of (left_fun to_normal idL 0) (gfam to_normal true idR [:: n1; n2] 0) [:: n1; n2] (get a) 0 i j = get a [:: i; j].
Proof.
move=> hi hj; rewrite /Omega_of [take _ _]/= [drop _ _]/= [sum_idx _ _]/=.
rewrite (eq_big_nat _ _ (F2 := fun k => if k == i then get a [:: i; j] else 0)); last first.
  move=> k /andP[_ hk]; rewrite (eq_big_nat _ _ (F2 := fun l => (i == k)%:R * get a [:: k; l] * (j == l)%:R)); last first.
    by move=> l /andP[_ hl]; rewrite idLE // -[X in _ = _ * X](@idRE l j hl hj).
  case: (k =P i) => [->|/eqP]; last by rewrite eq_sym => /negbTE h; rewrite big1 // => l _; rewrite h !mul0r.
  rewrite -(sum_nat_delta_r (fun l => get a [:: i; l]) hj); apply: eq_bigr => l _; by rewrite eqxx mul1r [l == j]eq_sym.
by rewrite -big_mkcond /= big_mkord (big_pred1 (Ordinal hi)).
Qed.

Lemma rank_mxg m m' n n' (A : 'M[R]_(m, n)) (B : 'M[R]_(m', n')) : m = m' -> n = n' ->
  (forall i j, (i < m)%N -> (j < n)%N -> mxg A i j = mxg B i j) -> \rank A = \rank B.
Proof.
move=> em en; case: m' / em B; case: n' / en => B h; congr mxrank; apply/matrixP => i j.
by rewrite -!mxgE h.
Qed.

Lemma id_rank (c : container R) : is_sk to_normal true idL idR (tshape X) (get a) c -> rank_condition idL idR (tshape X) (get a) c.
Proof.
move=> [_ _ _ hO]; have [_ sa] := ha; have [] := hO 0%N; first by rewrite /= sa.
move=> wW sW gW; rewrite /rank_condition /= sa /= in wW sW gW *; case=> [|//] _.
apply: rank_mxg; rewrite /= ?muln1 // => i j hi hj.
rewrite /mxg !insubT /= ?muln1 // => hi' hj'; rewrite !mxE /= ?drop0 /= ?muln1 ?modn1 ?divn1 gW //.
by rewrite id_omega.
Qed.

Example C28_nonvacuous : exists c, [/\ wf X, pair_ok idL idR (tshape X), gs X (Some idL) idR Streaming = Ok c,
  rank_condition idL idR (tshape X) (get a) c & or_linalg (assemble (@lstsq0 R) c Auto) (fun cs => to_numpy (TT cs) = Ok a)].
Proof.
have [w st hp [fL fR] oX] := id_args; have d1 : (1 < size (tshape X))%N by rewrite st.
have ea : to_numpy X = Ok a by [].
have sz : (size (tshape X)).-1 = 1%N by rewrite st.
have [||c ec hc] := gs_isk to_normal (@lstsq0 R) (@qr0 R) (wf_gen_rep w) d1 hp _ _ oX; rewrite ?sz //.
have {}hc := is_sk_numpy w ea hc; have rc := id_rank hc.
exists c; split=> //.
apply: (@C28_exact_recovery R to_normal (@lstsq0 R) (@qr0 R) (@lstsq0P R) true X idL idR a c Auto w ea d1 hp); rewrite ?sz ?st //=; rewrite ?p1 ?p2 //.
by rewrite -st.
Qed.

Example C29_C31_nonvacuous :
  or_linalg (gs X (Some idL) idR Orthogonal) (fun c => to_numpy (TT (Psi_cores c)) = Ok a) /\
  or_linalg (gs X (Some idL) idR Orthogonal) (fun c => orth_result [:: n1; n2] [:: n1] a (Psi_cores c)).
Proof.
have [w st hp [fL fR] oX] := id_args; have d1 : (1 < size (tshape X))%N by rewrite st.
have ea : to_numpy X = Ok a by [].
have sz : (size (tshape X)).-1 = 1%N by rewrite st.
have [c [_ _ ec rc _]] := C28_nonvacuous.
have lf : left_fits (tshape X) [:: n1] by rewrite st; case=> [|//] _ /=; rewrite mul1n.
have hs : all (fun n => 0 < n)%N (tshape X) by rewrite st /= p1 p2.
have h1 : all (fun n => 0 < n)%N (d_rank idL) by rewrite /= p1.
have h2 : all (fun n => 0 < n)%N (d_rank idR) by rewrite /= p2.
have qrP : qr_contract (@qr0 R) by case: (@qr0P R).
split.
  have := @C29_orthogonal_exact R to_normal (@lstsq0 R) (@qr0 R) (@lstsq0P R) qrP true X a idL idR c w ea d1 hp.
  by rewrite sz => /(_ fL fR oX hs h1 h2 lf ec rc) h; apply: or_imp h _ => c' [].
have := @C31_orthogonal R to_normal (@lstsq0 R) (@qr0 R) (@lstsq0P R) qrP true X a idL idR w ea d1 hp.
by rewrite sz => /(_ fL fR oX hs h1 h2 lf); rewrite st.
Qed.

Example C30_nonvacuous : (n2 <= n1)%N -> right_rank_condition to_normal true idR (tshape X) (get a) /\
  or_linalg (gs X None idR Hmt) (fun c => to_numpy (TT (Psi_cores c)) = Ok a).
Proof.
move=> le; have [w st hp [fL fR] oX] := id_args; have d1 : (1 < size (tshape X))%N by rewrite st.
have ea : to_numpy X = Ok a by [].
have sz : (size (tshape X)).-1 = 1%N by rewrite st.
have hs : all (fun n => 0 < n)%N (tshape X) by rewrite st /= p1 p2.
have qrP : qr_contract (@qr0 R) by case: (@qr0P R).
have rc : right_rank_condition to_normal true idR (tshape X) (get a).
  rewrite /right_rank_condition st /=; case=> [|//] _.
  apply: rank_mxg => /=; [by []|by rewrite ?drop0 ?muln1|] => i j hi hj.
  have hj2 : (j < n2)%N := hj. have hj' : (j < n2 * 1)%N by rewrite muln1.
  have hi' : (i < n1 * 1)%N := hi.
  rewrite (mxgE2 _ hi' hj) (mxgE2 _ hi' hj') mxE (bigD1 (Ordinal hj')) //= big1 ?addr0 => [|q /eqP nq].
    by rewrite !mxE /= ?drop0 -[X in _ * X = _]/(gfam to_normal true idR [:: n1; n2] 0 [:: (j %/ 1)%N] j) !divn1 (idRE hj2 hj2) eqxx mulr1.
  rewrite !mxE /= -[X in _ * X]/(gfam to_normal true idR [:: n1; n2] 0 [:: (q %/ 1)%N] j) !divn1 idRE //; last by rewrite -[X in (_ < X)%N]muln1; exact: (ltn_ord q).
  by case: eqP => [e|_]; rewrite ?mulr0 //; case: nq; apply: val_inj.
split=> //.
have [_ _ _ _ gR] := hp.
have := @C30_hmt_exact R to_normal (@lstsq0 R) (@qr0 R) qrP true X a idR w ea d1.
rewrite sz; apply=> //; try by rewrite st.
- by rewrite /= p2.
- by rewrite st; case=> [|//] _ /=; rewrite mul1n.
Qed.
End Ident.
End Ex.
