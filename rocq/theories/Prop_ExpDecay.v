(* C64: the test tensors of the scaling and timing scripts (tt_exp_decay) *)
From Coq Require Import String Ascii NArith.
From mathcomp Require Import all_ssreflect all_algebra.
From mathcomp Require Import zify.
From Verif Require Import Py Nd NdThy Ein Utils Tensor Spec LinSpec ChainThy MatThy TensorThy TensorThy2.
From Verif Require Import TensorThy4 TrimThy TensorNum SweepThy NormThy RoundThy SvSpec Rng Random Sketch Mixed MixedSpec Drivers LinExist.
From Verif Require Import RoundSumThy RecThy3 Prop_Random ExpDecay ExpDecaySpec.
From Verif Require Prop_Orth.
Set Implicit Arguments. Unset Strict Implicit. Unset Printing Implicit Defensive.
Import GRing.Theory Num.Theory Order.TTheory.
Local Open Scope ring_scope.

Section Core.
Variable R : rcfType.
Notation arr := (nd R).
Implicit Types (C A U V B : arr).

Definition mx_of m n A : 'M[R]_(m, n) := \matrix_(i, j) get A [:: nat_of_ord i; nat_of_ord j].

Lemma svs_intro m n A U V (s : seq R) : ocols U m (size s) -> orows V (size s) n ->
  (forall i j, (i < m)%N -> (j < n)%N -> get A [:: i; j] = \sum_(0 <= l < size s) get U [:: i; l] * nth 0 s l * get V [:: l; j]) ->
  (forall t, (t < size s)%N -> 0 <= nth 0 s t) -> (forall t u, (t <= u < size s)%N -> nth 0 s u <= nth 0 s t) ->
  singular_values (mx_of m n A) s.
Proof.
move=> oU oV gA s0 s1; split=> //; exists (mx_of m (size s) U), (mx_of (size s) n V); split.
- apply/matrixP => b c; rewrite !mxE -(oU b c) // big_mkord; apply: eq_bigr => i _; by rewrite !mxE.
- apply/matrixP => b c; rewrite !mxE -(oV b c) // big_mkord; apply: eq_bigr => i _; by rewrite !mxE.
apply/matrixP => i j; rewrite [LHS]mxE gA // [RHS]mxE big_mkord; apply: eq_bigr => l _.
by rewrite mul_mx_diag !mxE.
Qed.

(* the values after decay_core *)
Variable svd_red : arr -> res (arr * arr * arr).
Hypothesis svdP : svd_red_contract svd_red.
Variable logspace : nat -> seq R.
Hypothesis lsP : logspace_contract logspace.
Notation decay_core := (decay_core svd_red logspace).

Definition target (f : script) (old : seq R) (m : nat) : seq R :=
  match f with
  | Timings => [seq p.1 * p.2 | p <- zip old (logspace m)]
  | _ => [seq x * Num.sqrt m%:R | x <- logspace m]
  end.

Lemma target_ok f old m : size old = m -> (forall t, (t < m)%N -> 0 <= nth 0 old t) ->
  (forall t u, (t <= u < m)%N -> nth 0 old u <= nth 0 old t) ->
  [/\ size (target f old m) = m, forall t, (t < m)%N -> 0 <= nth 0 (target f old m) t &
      forall t u, (t <= u < m)%N -> nth 0 (target f old m) u <= nth 0 (target f old m) t].
Proof.
move=> so o0 o1; have [sl _ l0 l1] := lsP m.
have sz : size (zip old (logspace m)) = m by rewrite size_zip so sl minnn.
case: f; rewrite /target.
1,2: split=> [|t ht|t u htu]; rewrite ?size_map //.
1,3: by rewrite (nth_map 0) ?sl // mulr_ge0 ?sqrtr_ge0 // ltW // l0.
1,2: by have [tu um] := andP htu; have tm := leq_ltn_trans tu um; rewrite !(nth_map 0) ?sl // ler_wpmul2r ?sqrtr_ge0 // l1.
split=> [|t ht|t u htu]; rewrite ?size_map //.
  by rewrite (nth_map (0, 0)) ?sz // nth_zip ?so ?sl // mulr_ge0 ?o0 // ltW // l0.
have [tu um] := andP htu; have tm := leq_ltn_trans tu um.
rewrite !(nth_map (0, 0)) ?sz // !nth_zip ?so ?sl //=.
by apply: ler_pmul; rewrite ?o0 ?o1 ?l1 // ltW // l0.
Qed.

(* U diag(S') Vt *)
Lemma recompose f A m n : is_mat A m n -> or_linalg (svd_red A) (fun usv => let: (U, Sv, Vt) := usv in
  exists2 B, (do X <- matmul U (diag (new_svals logspace f Sv (minn m n))); matmul X Vt) = Ok B &
    [/\ is_mat B m n, size (ndata Sv) = minn m n, singular_values (mx_of m n A) (ndata Sv) & singular_values (mx_of m n B) (target f (ndata Sv) (minn m n))]).
Proof.
move=> mA; have := svdP mA; case: (svd_red A) => [[[U Sv] Vt]|e] //= [mU mV oU oV [[wS sS] S0 S1 gA]].
set k := minn m n in mU mV oU oV sS S0 S1 gA *.
have sz : size (ndata Sv) = k by move: wS; rewrite /nwf sS /= muln1 => /eqP.
have gS t : get Sv [:: t] = nth 0 (ndata Sv) t by rewrite /get sS /= muln1 addn0.
have [sl _ l0 l1] := lsP k.
have s0 t : (t < k)%N -> 0 <= nth 0 (ndata Sv) t by rewrite -gS; exact: S0.
have s1 t u : (t <= u < k)%N -> nth 0 (ndata Sv) u <= nth 0 (ndata Sv) t by rewrite -!gS; exact: S1.
have [st t0 t1] := target_ok f sz s0 s1.
have eN : new_svals logspace f Sv k = Nd [:: k] (target f (ndata Sv) k).
  by rewrite /new_svals /target /dim sS /=; case: f {st t0 t1}; rewrite ?sl.
rewrite eN.
have mD : is_mat (diag (Nd [:: k] (target f (ndata Sv) k))) k k by split=> //; exact: nwf_tab.
have gD l t : (l < k)%N -> (t < k)%N -> get (diag (Nd [:: k] (target f (ndata Sv) k))) [:: l; t] = (l == t)%:R * nth 0 (target f (ndata Sv) k) l.
  move=> hl ht; rewrite /diag get_tab /= ?hl ?ht // /get /= muln1 addn0; by case: eqP => _; rewrite ?mul1r ?mul0r.
have [X -> [mX gX]] := matmulE mU mD; cbn [bind].
have [B -> [mB gB]] := matmulE mX mV; exists B => //; split=> //.
  apply: (@svs_intro _ _ _ U Vt); rewrite ?sz // => i j hi hj; rewrite gA //; apply: eq_big_nat => l _; by rewrite gS.
apply: (@svs_intro _ _ _ U Vt); rewrite ?st // => i j hi hj; rewrite gB //; apply: eq_big_nat => l /andP[_ hl].
congr (_ * _); rewrite gX // -(sum_nat_delta_r (fun l => get U [:: i; l] * nth 0 (target f (ndata Sv) k) l) hl).
apply: eq_big_nat => t /andP[_ ht]; rewrite gD // -mulrA; congr (_ * _); exact: mulrC.
Qed.

Lemma left_unfE r1 n r2 C M : is_mat M (r1 * n) r2 -> (forall a k b, get C [:: a; k; b] = get M [:: (a * n + k)%N; b]) ->
  left_unf r1 n r2 C = mx_of (r1 * n) r2 M.
Proof. by move=> mM g; apply/matrixP => p l; rewrite !mxE g -divn_eq. Qed.
Lemma right_unfE r1 n r2 C M : is_mat M r1 (n * r2) -> (forall a k b, get C [:: a; k; b] = get M [:: a; (k * r2 + b)%N]) ->
  right_unf r1 n r2 C = mx_of r1 (n * r2) M.
Proof. by move=> mM g; apply/matrixP => a q; rewrite !mxE g -divn_eq. Qed.

Lemma decay_coreP f C r1 n r2 : nwf C -> nshape C = [:: r1; n; r2] -> or_linalg (decay_core f C) (fun D =>
  [/\ nwf D, nshape D = [:: r1; n; r2] & exists old, [/\ size old = main_min C, main_svals C old & main_svals D (target f old (main_min C))]]).
Proof.
move=> wC sC; have [d0 d1 d2] := dim3 sC.
rewrite /ExpDecay.decay_core /mat_shape d0 d1 d2 [(_, _).1]/= [(_, _).2]/= [(_, _).1]/= [(_, _).2]/= sC.
rewrite /main_min /main_svals d0 d1 d2 /left_min /right_min.
case: ifP => hlt; cbn [fst snd].
  have [M -> [mM gM]] := unfoldL wC sC; cbn [bind].
  have := recompose f mM; case: (svd_red M) => [[[U Sv] Vt]|e] //= [B eB [mB sz sv1 sv2]].
  move: eB; case: (matmul U _) => [X|e] //= ->; cbn [bind].
  have [D -> [wD sD gD]] := foldL mB; split=> //; exists (ndata Sv).
  have [e0 e1 e2] := dim3 sD; rewrite e0 e1 e2 hlt (maxn_idPl (ltnW hlt)); split=> //.
    by rewrite (left_unfE mM) // => a k b; rewrite gM.
  by rewrite (left_unfE mB).
have [M -> [mM gM]] := unfoldR wC sC; cbn [bind].
have := recompose f mM; case: (svd_red M) => [[[U Sv] Vt]|e] //= [B eB [mB sz sv1 sv2]].
move: eB; case: (matmul U _) => [X|e] //= ->; cbn [bind].
have [D -> [wD sD gD]] := foldR mB; split=> //; exists (ndata Sv).
have hle : (minn (r1 * n) r2 <= minn r1 (n * r2))%N by rewrite leqNgt hlt.
have [e0 e1 e2] := dim3 sD; rewrite e0 e1 e2 hlt (maxn_idPr hle); split=> //.
  by rewrite (right_unfE mM) // => a k b; rewrite gM.
by rewrite (right_unfE mB).
Qed.
End Core.

Section Gen.
Variable R : rcfType.
Notation arr := (nd R).
Notation C0 := (Nd [::] [::] : arr).
Variable gen : N -> nat -> nat -> R.
Variable threads : nat.
Variable state : N -> nat -> N.
Variables (qr : arr -> res (arr * arr)) (svd_red : arr -> res (arr * arr * arr)) (logspace : nat -> seq R).
Hypotheses (qrP : qr_contract qr) (svdP : svd_red_contract svd_red) (lsP : logspace_contract logspace).
Notation tt_random := (tt_random gen threads state qr).
Notation tt_exp_decay := (tt_exp_decay gen threads state qr svd_red logspace).

Lemma links_same a b (cs ds : seq arr) : links a cs b -> size ds = size cs ->
  (forall k, (k < size cs)%N -> nwf (nth C0 ds k) /\ nshape (nth C0 ds k) = nshape (nth C0 cs k)) ->
  [/\ links a ds b, [seq dim D 1 | D <- ds] = [seq dim C 1 | C <- cs] & [seq dim D 0 | D <- ds] = [seq dim C 0 | C <- cs]].
Proof.
elim: cs a ds => [|C cs IH] a [|D ds] // /= /and3P[_ /eqP sC L] [sz] H.
have [wD sD] := H 0%N isT; rewrite /= in wD sD.
have e i : dim D i = dim C i by rewrite /dim sD.
have [k hk|h1 h2 h3] := IH _ ds L sz; first by apply: (H k.+1).
by rewrite wD sD !e sC eqxx h1 h2 h3.
Qed.

Lemma links_nth a b (cs : seq arr) k : links a cs b -> (k < size cs)%N ->
  nwf (nth C0 cs k) /\ exists r1 n r2, nshape (nth C0 cs k) = [:: r1; n; r2].
Proof.
elim: cs a k => [|C cs IH] a [|k] //= /and3P[w /eqP s L] hk; last exact: IH L hk.
by split=> //; eexists; eexists; eexists; exact: s.
Qed.

Variables (shape rk : seq nat) (rank : ttrank) (seed : N).
Hypothesis hp : process_tt_rank rank shape false = Ok rk.
Hypotheses (h102 : (size shape <= 102)%N) (hs : all (fun n => 0 < n)%N shape) (hr : all (fun n => 0 < n)%N rk).

Lemma tt_exp_decayP f : or_linalg (tt_exp_decay f shape rank seed) (fun cs =>
  [/\ wf_tt cs, tshape (TT cs) = shape, tt_rank cs = trim_ranks shape rk &
    exists2 cs0, tt_random shape rank seed true (Some true) "norm-1" = Ok cs0 &
    forall k, (k < size shape)%N -> exists old, let C := nth C0 cs0 k in let D := nth C0 cs k in
      [/\ size old = main_min C, main_svals C old, main_svals D (target logspace f old (main_min C)) & main_min D = main_min C]]).
Proof.
rewrite /ExpDecay.tt_exp_decay.
have := @C51_tt_random_orthog _ gen threads state qr shape rank rk seed (Some true) "norm-1" qrP isT (or_introl erefl) hp h102 hs hr.
case E: (tt_random _ _ _ _ _ _) => [cs0|e] // [w0 s0 r0 _]; cbn [bind].
have [n0 L0] := andP w0; have sz0 : size cs0 = size shape by rewrite -s0 size_map.
pose Q k (D : arr) := [/\ nwf D, nshape D = nshape (nth C0 cs0 k) & exists old, let C := nth C0 cs0 k in
   [/\ size old = main_min C, main_svals C old, main_svals D (target logspace f old (main_min C)) & main_min D = main_min C]].
have h := @mapM_or _ _ C0 C0 (decay_core svd_red logspace f) cs0 Q.
apply: (@or_bind _ _ _ _ (fun m => size m = size cs0 /\ forall k, (k < size cs0)%N -> Q k (nth C0 m k))).
  apply: h => k hk.
  have [wC sC] := links_nth L0 hk.
  have [r1 [n [r2 {}sC]]] := sC.
  apply: or_imp (decay_coreP svdP lsP f wC sC) _ => D [wD sD [old [h1 h2 h3]]]; split; rewrite ?sC //.
  by exists old; split=> //; rewrite /main_min /dim sC sD.
move=> cs [sz H].
have [|L' es er] := links_same L0 sz; first by move=> k /H[].
have fin : [/\ wf_tt cs, tshape (TT cs) = shape, tt_rank cs = trim_ranks shape rk &
    exists2 cs1, Ok cs0 = Ok cs1 & forall k, (k < size shape)%N -> exists old, let C := nth C0 cs1 k in let D := nth C0 cs k in
      [/\ size old = main_min C, main_svals C old, main_svals D (target logspace f old (main_min C)) & main_min D = main_min C]].
  split.
  - by rewrite /wf_tt L' andbT; case: (cs) (cs0) sz n0 => [|? ?] [].
  - by rewrite -s0 -/(tshape (TT cs)) /tshape; exact: es.
  - rewrite -r0 /tt_rank; move: er; case: (cs) (cs0) sz => [|? ?] [|? ?] //= _ []//.
  - by exists cs0 => // k; rewrite -sz0 => /H[].
clear H h Q; case: f fin => // fin.
have s1 : (0 < size shape)%N by have [] := process_size_gen hp.
have [wc ec rc _] := fin.
have pc : pos_tt cs.
  rewrite (pos_ttE wc) ec hs rc; have [_ sr] := process_size_gen hp.
  by have [_ -> _] := Prop_Orth.trim_left_fits hs hr s1 sr h102.
by apply: or_bind (orthogonalizeP qrP wc pc) _ => out _.
Qed.
End Gen.

(* ---- orthogonality of the cores ---- *)
Section Frob.
Variable R : rcfType.
Implicit Types (C : nd R).

Definition sq3 r1 n r2 C : R := \sum_(0 <= a < r1) \sum_(0 <= k < n) \sum_(0 <= b < r2) get C [:: a; k; b] ^+ 2.

Lemma tr_sq m n (M : 'M[R]_(m, n)) : \tr (M^T *m M) = \sum_(i < m) \sum_(j < n) M i j ^+ 2.
Proof.
rewrite /mxtrace exchange_big; apply: eq_bigr => i _; rewrite mxE; apply: eq_bigr => j _.
by rewrite !mxE expr2.
Qed.

Lemma svs_sq m n (M : 'M[R]_(m, n)) s : singular_values M s -> \tr (M^T *m M) = \sum_(0 <= t < size s) nth 0 s t ^+ 2.
Proof.
case=> _ _ [U [V [oU oV ->]]]; set D := diag_mx _.
have -> : (U *m D *m V)^T *m (U *m D *m V) = V^T *m (D *m D *m V).
  by rewrite !trmx_mul tr_diag_mx -!mulmxA (mulmxA U^T) oU mul1mx.
rewrite mxtrace_mulC -(mulmxA (D *m D)) oV mulmx1 mulmx_diag mxtrace_diag big_mkord.
by apply: eq_bigr => t _; rewrite !mxE expr2.
Qed.

Lemma left_sq r1 n r2 C : \tr ((left_unf r1 n r2 C)^T *m left_unf r1 n r2 C) = sq3 r1 n r2 C.
Proof.
rewrite tr_sq /sq3; transitivity (\sum_(0 <= p < r1 * n) \sum_(0 <= b < r2) get C [:: p %/ n; p %% n; b]%N ^+ 2).
  by rewrite big_mkord; apply: eq_bigr => p _; rewrite big_mkord; apply: eq_bigr => b _; rewrite mxE.
rewrite sum_nat_mul; apply: eq_bigr => a _; apply: eq_big_nat => k /andP[_ hk]; apply: eq_bigr => b _.
by rewrite divnMDl ?(leq_trans _ hk) // divn_small // addn0 modnMDl modn_small.
Qed.
Lemma right_sq r1 n r2 C : \tr ((right_unf r1 n r2 C)^T *m right_unf r1 n r2 C) = sq3 r1 n r2 C.
Proof.
rewrite tr_sq /sq3 big_mkord; apply: eq_bigr => a _.
transitivity (\sum_(0 <= q < n * r2) get C [:: nat_of_ord a; q %/ r2; q %% r2]%N ^+ 2).
  by rewrite big_mkord; apply: eq_bigr => q _; rewrite mxE.
rewrite sum_nat_mul; apply: eq_bigr => k _; apply: eq_big_nat => b /andP[_ hb].
by rewrite divnMDl ?(leq_trans _ hb) // divn_small // addn0 modnMDl modn_small.
Qed.

Lemma left_orth_le r1 n r2 C : nshape C = [:: r1; n; r2] -> left_orth C -> (r2 <= r1 * n)%N /\ sq3 r1 n r2 C = r2%:R.
Proof.
move=> sC; rewrite /left_orth; have [-> -> ->] := dim3 sC => O.
have e : (left_unf r1 n r2 C)^T *m left_unf r1 n r2 C = 1%:M.
  apply/matrixP => b c; rewrite !mxE -(O b c) //.
  transitivity (\sum_(0 <= p < r1 * n) get C [:: p %/ n; p %% n; nat_of_ord b]%N * get C [:: p %/ n; p %% n; nat_of_ord c]%N).
    by rewrite big_mkord; apply: eq_bigr => p _; rewrite !mxE.
  rewrite sum_nat_mul; apply: eq_bigr => a _; apply: eq_big_nat => k /andP[_ hk].
  by rewrite divnMDl ?(leq_trans _ hk) // divn_small // addn0 modnMDl modn_small.
by split; [exact: mulmx1_min e|rewrite -left_sq e mxtrace1].
Qed.
Lemma right_orth_le r1 n r2 C : nshape C = [:: r1; n; r2] -> right_orth C -> (r1 <= n * r2)%N /\ sq3 r1 n r2 C = r1%:R.
Proof.
move=> sC; rewrite /right_orth; have [-> -> ->] := dim3 sC => O.
have e : right_unf r1 n r2 C *m (right_unf r1 n r2 C)^T = 1%:M.
  apply/matrixP => b c; rewrite !mxE -(O b c) //.
  transitivity (\sum_(0 <= q < n * r2) get C [:: nat_of_ord b; q %/ r2; q %% r2]%N * get C [:: nat_of_ord c; q %/ r2; q %% r2]%N).
    by rewrite big_mkord; apply: eq_bigr => p _; rewrite !mxE.
  rewrite sum_nat_mul; apply: eq_bigr => k _; apply: eq_big_nat => b' /andP[_ hb].
  by rewrite divnMDl ?(leq_trans _ hb) // divn_small // addn0 modnMDl modn_small.
by split; [exact: mulmx1_min e|rewrite -right_sq mxtrace_mulC e mxtrace1].
Qed.

Lemma main_sq r1 n r2 C s : nshape C = [:: r1; n; r2] -> main_svals C s -> sq3 r1 n r2 C = \sum_(0 <= t < size s) nth 0 s t ^+ 2.
Proof.
move=> sC; rewrite /main_svals; have [-> -> ->] := dim3 sC.
by case: ifP => _ h; [rewrite -left_sq|rewrite -right_sq]; exact: svs_sq h.
Qed.

(* the sum of the squares is more than m *)
Lemma sq_big (logspace : nat -> seq R) m : logspace_contract logspace -> (2 <= m)%N ->
  m%:R < \sum_(0 <= t < m) nth 0 [seq x * Num.sqrt m%:R | x <- logspace m] t ^+ 2.
Proof.
move=> lsP m2; have [sl h0 hp _] := lsP m; have m0 : (0 < m)%N by exact: ltn_trans m2.
have e t : (t < m)%N -> nth 0 [seq x * Num.sqrt m%:R | x <- logspace m] t ^+ 2 = nth 0 (logspace m) t ^+ 2 * m%:R.
  by move=> ht; rewrite (nth_map 0) ?sl // exprMn sqr_sqrtr // ler0n.
rewrite (eq_big_nat _ _ (F2 := fun t => nth 0 (logspace m) t ^+ 2 * m%:R)); last by move=> t /andP[_]; exact: e.
have mp : 0 < m%:R :> R by rewrite ltr0n.
rewrite big_ltn // h0 // expr1n mul1r big_ltn // addrA -[X in X < _]addr0 -addrA ltr_add2l.
apply: ltr_paddr; last by rewrite mulr_gt0 // exprn_gt0 // hp.
by apply: sumr_ge0 => t _; rewrite mulr_ge0 ?sqr_ge0 // ltW.
Qed.

Lemma not_orth (logspace : nat -> seq R) r1 n r2 C : logspace_contract logspace -> nshape C = [:: r1; n; r2] ->
  main_svals C [seq x * Num.sqrt (main_min C)%:R | x <- logspace (main_min C)] -> (2 <= main_min C)%N ->
  ~ left_orth C /\ ~ right_orth C.
Proof.
move=> lsP sC hm m2; have := main_sq sC hm; have [sl _ _ _] := lsP (main_min C); rewrite size_map sl => e.
have := sq_big lsP m2; rewrite -e => {e}; have [d0 d1 d2] := dim3 sC.
have em : main_min C = maxn (minn (r1 * n) r2) (minn r1 (n * r2)) by rewrite /main_min d0 d1 d2.
move=> hlt; split.
  move/(left_orth_le sC) => [h1 h2]; move: hlt; rewrite h2 ltr_nat ltnNge em => /negP[].
  by rewrite (minn_idPr h1) leq_maxl.
move/(right_orth_le sC) => [h1 h2]; move: hlt; rewrite h2 ltr_nat ltnNge em => /negP[].
by rewrite (minn_idPl h1) leq_maxr.
Qed.
End Frob.

(* ---- C64 ---- *)
Section Theorems.
Variable R : rcfType.
Notation arr := (nd R).
Notation C0 := (Nd [::] [::] : arr).
Variable gen : N -> nat -> nat -> R.
Variable threads : nat.
Variable state : N -> nat -> N.
Variables (qr : arr -> res (arr * arr)) (svd_red : arr -> res (arr * arr * arr)) (logspace : nat -> seq R).
Hypotheses (qrP : qr_contract qr) (svdP : svd_red_contract svd_red) (lsP : logspace_contract logspace).
Notation tt_random := (tt_random gen threads state qr).
Notation tt_exp_decay := (tt_exp_decay gen threads state qr svd_red logspace).
Variables (shape rk : seq nat) (rank : ttrank) (seed : N).
Hypothesis hp : process_tt_rank rank shape false = Ok rk.
Hypotheses (h102 : (size shape <= 102)%N) (hs : all (fun n => 0 < n)%N shape) (hr : all (fun n => 0 < n)%N rk).

(* plot_dimension_scaling.py and plot_dimension_scaling_gaussian.py: a train of the requested shape,
   its ranks the requested ones made feasible; the singular values of the main unfolding of every
   core are the values of np.logspace times the square root of their number *)
Theorem C64_shape_and_svals f : (if f is Timings then false else true) ->
  or_linalg (tt_exp_decay f shape rank seed) (fun cs =>
    [/\ wf_tt cs, tshape (TT cs) = shape, tt_rank cs = trim_ranks shape rk &
      forall k, (k < size shape)%N -> let D := nth C0 cs k in let m := main_min D in
        main_svals D [seq x * Num.sqrt m%:R | x <- logspace m]]).
Proof.
move=> hf; apply: or_imp (@tt_exp_decayP _ gen threads state _ _ _ qrP svdP lsP _ _ _ seed hp h102 hs hr f) _ => cs [h1 h2 h3 [cs0 _ H]]; split=> // k /H[old [_ _ h4 h5]].
by rewrite /= h5; move: h4; rewrite /target; case: f hf {H}.
Qed.

(* plot_timings.py: the singular values of every core of the random train, each multiplied by the
   corresponding value of np.logspace *)
Theorem C64_timings : or_linalg (tt_exp_decay Timings shape rank seed) (fun cs =>
    [/\ wf_tt cs, tshape (TT cs) = shape, tt_rank cs = trim_ranks shape rk &
      exists2 cs0, tt_random shape rank seed true (Some true) "norm-1" = Ok cs0 &
      forall k, (k < size shape)%N -> exists2 old, main_svals (nth C0 cs0 k) old &
        main_svals (nth C0 cs k) [seq p.1 * p.2 | p <- zip old (logspace (size old))]]).
Proof.
apply: or_imp (@tt_exp_decayP _ gen threads state _ _ _ qrP svdP lsP _ _ _ seed hp h102 hs hr Timings) _ => cs [h1 h2 h3 [cs0 e H]]; split=> //; exists cs0 => // k /H[old [so h4 h5 h6]].
by exists old => //; rewrite so.
Qed.

(* the gaussian script orthogonalizes the train and drops the result: it returns the train of
   plot_dimension_scaling.py *)
Theorem C64_gaussian_same cs : tt_exp_decay Gaussian shape rank seed = Ok cs ->
  tt_exp_decay DimensionScaling shape rank seed = Ok cs.
Proof.
rewrite /ExpDecay.tt_exp_decay; case: (Random.tt_random _ _ _ _ _ _ _ _ _ _) => //= cs0.
by case: (mapM _ cs0) => //= out; case: (TensorNum.tt_orthogonalize _ _).
Qed.

(* no core with two singular values or more has orthonormal columns in its left unfolding or
   orthonormal rows in its right unfolding *)
Theorem C64_not_orthogonal_refuted f : (if f is Timings then false else true) ->
  or_linalg (tt_exp_decay f shape rank seed) (fun cs => forall k, (k < size shape)%N ->
    (2 <= main_min (nth C0 cs k))%N -> ~ left_orth (nth C0 cs k) /\ ~ right_orth (nth C0 cs k)).
Proof.
move=> hf; apply: or_imp (C64_shape_and_svals hf) _ => cs [/andP[_ L] h2 _ H] k hk m2.
have hk' : (k < size cs)%N by move: hk; rewrite -h2 size_map.
have [_ [r1 [n [r2 sC]]]] := links_nth L hk'.
exact: not_orth lsP sC (H k hk) m2.
Qed.
End Theorems.

Print Assumptions C64_shape_and_svals.
Print Assumptions C64_timings.
Print Assumptions C64_gaussian_same.
Print Assumptions C64_not_orthogonal_refuted.

(* tt_error_func of plot_timings.py: the relative error; for the zero train it reads np.infa, an
   attribute that numpy does not have *)
From Verif Require Import SkSpec Prop_Drivers.
Section Timings.
Variable R : rcfType.
Variable lstsq : nd R -> nd R -> res (nd R).
Variable qr : nd R -> res (nd R * nd R).
Variable fuel : nat.
Hypothesis qrP : qr_contract qr.
Theorem C64_timings_error T cs cs2 a : stands_for lstsq T (TT cs) -> nesting T = 0%N ->
  wf_tt cs -> pos_tt cs -> good_input fuel (TT cs2) a -> tshape (TT cs : tensor R) = tshape (TT cs2 : tensor R) ->
  exists2 b, a_to_numpy lstsq T = Ok b &
  match tt_error_func_timings qr lstsq T (input (TT cs2)) with
  | Ok e => frob (nshape a) (get a) <> 0 /\ Some e = relative_error b a
  | Err AttributeError => frob (nshape a) (get a) = 0
  | Err e => e = LinAlgError
  end.
Proof.
move=> hT nT wc pc hg sc; have [b eb h] := C60_tt_error_func qrP true hT nT wc pc hg sc; exists b => //.
have [w ea _ p2 _] := hg.
have ec : match T with ASk st => stt_to_tt lstsq st | ALeaf (TT cs) => Ok cs | _ => Err AttributeError end = Ok cs.
  by case: T hT nT {eb h} => [U /= [-> _]|st /= [cs' -> [_ [->]]]|s Ts] //; case: (TT cs).
move: h; rewrite /tt_error_func_timings /tt_error_func ec /=.
have hn := tt_normP qrP (w : wf_tt cs2) p2.
have hf : Num.sqrt (sqnorm_of (TT cs2)) = frob (nshape a) (get a) by rewrite (sqnorm_obs (w : wf (TT cs2)) ea).
rewrite hf in hn; case: (tt_norm qr cs2) hn => [n2|e] /=; last by move=> -> _.
move=> ->; case: eqP => [->|n0] //=; rewrite ?eqxx //.
case: (tneg (TT cs2)) => [Y|e] /=; last by move=> ->.
case: Y; try by []; move=> ncs.
case: (tt_add cs ncs) => [s|e] /=; last by move=> ->.
by case: (tt_norm qr s) => [v|e] /= ->.
Qed.
End Timings.
Print Assumptions C64_timings_error.

(* Non-vacuity: with the routines of LinExist.v and the values 1, 1/2, 1/4, ... the hypotheses hold
   and all three scripts return a train; for the shape (4, 6, 5) and ranks at most 3 the middle core
   has 3 singular values, so the statement about orthogonality is not empty. *)
From Verif Require Import NoLinSpec NoLin Prop_Total.
Section Ex.
Variable R : rcfType.
Variable gen : N -> nat -> nat -> R.
Variable threads : nat.
Variable state : N -> nat -> N.
Definition halves (n : nat) : seq R := mkseq (fun t => (2%:R ^+ t)^-1) n.
Lemma halves_ok : logspace_contract halves.
Proof.
have p t : 0 < (2%:R : R) ^+ t by rewrite exprn_gt0 // ltr0n.
move=> n; split=> [|n0|t ht|t u /andP[tu un]]; rewrite ?size_mkseq ?nth_mkseq ?expr0 ?invr1 ?invr_gt0 //; last exact: leq_ltn_trans tu un.
by rewrite lef_pinv ?posrE // ler_weexpn2l // ler1n.
Qed.
Lemma ex_rank : process_tt_rank (RInt 3) [:: 4; 6; 5]%N false = Ok [:: 3; 3]%N.
Proof. by []. Qed.

Example C64_runs f : exists cs, tt_exp_decay gen threads state (@qr0 R) (@svd_red0 R) halves f [:: 4; 6; 5]%N (RInt 3) 0%num = Ok cs /\
  tt_rank cs = [:: 3; 3]%N /\ main_min (nth (Nd [::] [::]) cs 1) = 3%N.
Proof.
have [q _] := @qr0P R.
have := @tt_exp_decayP R gen threads state _ _ _ q (@svd_red0P R) halves_ok [:: 4; 6; 5]%N [:: 3; 3]%N (RInt 3) 0%num erefl isT isT isT f.
have n : nolin (tt_exp_decay gen threads state (@qr0 R) (@svd_red0 R) halves f [:: 4; 6; 5]%N (RInt 3) 0%num).
  rewrite /ExpDecay.tt_exp_decay; apply: nl_bind => [|cs].
    rewrite /Random.tt_random; nl; auto with nl; rewrite /Random.tt_random_core; nl; auto with nl.
  apply: nl_bind => [|out]; last first.
    case: f; rewrite /tt_orthogonalize; nl; auto with nl nocore.
  by apply: nl_mapM => C; rewrite /ExpDecay.decay_core; nl; auto with nl.
move/(or_total n) => [cs e [w s r _]]; exists cs; split=> //.
have er : trim_ranks [:: 4; 6; 5]%N [:: 3; 3]%N = [:: 3; 3]%N by [].
rewrite er in r; split=> //.
move: w s r; rewrite /wf_tt /= /tt_rank; clear e n.
case: cs => [|A [|B [|C [|? ?]]]] //= /and4P[_ /eqP sA _ /and4P[/eqP sB _ /eqP sC _]] [_ b1 _] [r1 r2].
have b2 : dim B 2 = 3%N by rewrite -r2 [RHS]/dim sC.
by rewrite /main_min /left_min /right_min b1 r1 b2.
Qed.
End Ex.
