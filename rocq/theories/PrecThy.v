From Coq Require Import String Ascii NArith.
From mathcomp Require Import all_ssreflect all_algebra.
From mathcomp Require Import zify.
From Verif Require Import Py Nd Utils Tensor TensorNum Sketch Mpo Gmres Spec LinSpec RecSpec SkSpec MpoSpec GmresSpec.
From Verif Require Import NdThy Ein MatThy TensorThy TensorThy2 ChainThy SweepThy RoundThy SkThy1 SkThy2.
Set Implicit Arguments. Unset Strict Implicit. Unset Printing Implicit Defensive.
Import GRing.Theory Num.Theory.
Local Open Scope ring_scope.

Section Prec.
Variable R : rcfType.
Notation arr := (nd R).

Lemma matricize1_true (C : arr) a n b : nshape C = [:: a; n; b] -> matricize C [:: 1%N] true = matricize C [:: 1%N] false.
Proof.
by move=> e; rewrite /matricize /transpose /ndim e /= !muln1.
Qed.

Lemma mat1E (C : arr) a n b : nwf C -> nshape C = [:: a; n; b] ->
  exists2 M, matricize C [:: 1%N] true = Ok M & is_mat M n (a * b) /\
  forall x k y, (x < a)%N -> (k < n)%N -> (y < b)%N -> get M [:: k; (x * b + y)%N] = get C [:: x; k; y].
Proof.
move=> w e; rewrite (matricize1_true e).
have h : (1 < ndim C)%N by rewrite /ndim e.
have [M eM [wM sM gM]] := matricize_mode w h; exists M => //; rewrite /dim e /del /= muln1 in sM gM *.
split; first by split.
move=> x k y hx hk hy; have := gM k [:: x; y]; rewrite /= hx hk hy => /(_ isT).
by rewrite /= !muln1 addn0 /ins /=.
Qed.

Lemma demat1E (B : arr) a n b : is_mat B n (a * b) ->
  exists2 C, dematricize B 1 [:: a; n; b] = Ok C &
  [/\ nwf C, nshape C = [:: a; n; b] &
  forall x k y, (x < a)%N -> (k < n)%N -> (y < b)%N -> get C [:: x; k; y] = get B [:: k; (x * b + y)%N]].
Proof.
move=> [wB sB]; pose C : arr := tab [:: a; n; b] (fun i => get B [:: nth 0 i 1; (nth 0 i 0 * b + nth 0 i 2)%N]%N).
have wC : nwf C := nwf_tab _ _.
have gC x k y : (x < a)%N -> (k < n)%N -> (y < b)%N -> get C [:: x; k; y] = get B [:: k; (x * b + y)%N].
  by move=> hx hk hy; rewrite get_tab //= hx hk hy.
exists C; last by split.
have [M eM [[wM sM] gM]] := mat1E wC erefl.
have eMB : M = B.
  apply: nd_ext => //; first by rewrite sM sB.
  rewrite sM => i /inb2P[k [z [-> hk hz]]].
  have b0 : (0 < b)%N by case: (b) hz => [|//]; rewrite muln0.
  rewrite (divn_eq z b); have hx : (z %/ b < a)%N by rewrite ltn_divLR.
  by have hy := ltn_pmod z b0; rewrite gM // gC.
have := @dematricizeK R C 1 wC isT; rewrite -(matricize1_true (erefl (nshape C))) eM /= eMB.
by [].
Qed.

(* replacing one core *)
Definition setc (m : nat) (cs : seq arr) (C' : arr) : seq arr := take m cs ++ C' :: drop m.+1 cs.

Lemma setc_links a cs b m C' : links a cs b -> (m < size cs)%N -> nwf C' -> nshape C' = nshape (nth (Nd [::] [::]) cs m) ->
  [/\ links a (setc m cs C') b, [seq dim C 1 | C <- setc m cs C'] = [seq dim C 1 | C <- cs] &
      [seq dim C 0 | C <- setc m cs C'] = [seq dim C 0 | C <- cs]].
Proof.
elim: cs a m => [|C cs IH] a [|m] //=.
  move=> /and3P[wC /eqP sC L] _ wC' sC'; rewrite /setc /= drop0 /dim sC'; split=> //.
  by rewrite wC' /=; apply/andP; split; [apply/eqP|].
move=> /and3P[wC sC L] hm wC' sC'; have [L' e1 e0] := IH _ _ L hm wC' sC'.
rewrite /setc /= -/(setc m cs C'); split; [|by rewrite e1|by rewrite e0].
by rewrite wC sC L'.
Qed.

Lemma setc_chain a cs b m C' n (W : nat -> nat -> R) i x y : links a cs b -> (m < size cs)%N ->
  let C := nth (Nd [::] [::]) cs m in nshape C' = nshape C -> n = dim C 1 ->
  (forall x k y, (x < dim C 0)%N -> (k < n)%N -> (y < dim C 2)%N ->
     get C' [:: x; k; y] = \sum_(0 <= l < n) W k l * get C [:: x; l; y]) ->
  (x < a)%N -> inb [seq dim C 1 | C <- cs] i ->
  chain (setc m cs C') i x y = \sum_(0 <= l < n) W (nth 0%N i m) l * chain cs (upd i m l) x y.
Proof.
move=> L hm C sC' en gC'; elim: cs a m i x L hm @C sC' en gC' => [|D cs IH] a [|m] [|k i] x //=.
  move=> /and3P[wD /eqP sD L] _ sC' en gC' hx /andP[hk hi].
  have ea : a = dim D 0 by rewrite /dim sD.
  rewrite /setc /upd /= drop0; under [in RHS]eq_big_nat => l hl do rewrite drop0 big_distrr /=.
  rewrite [RHS]exchange_big /=; rewrite (_ : dim C' 2 = dim D 2); last by rewrite /dim sC'.
  apply: eq_big_nat => t /andP[_ ht].
  rewrite gC' -?ea -?en // ?en // big_distrl /=; apply: eq_bigr => l _; by rewrite mulrA.
move=> /and3P[wD /eqP sD L] hm sC' en gC' hx /andP[hk hi].
rewrite /setc /= -/(setc m cs C'); under eq_big_nat => t /andP[_ ht] do
  rewrite (IH _ _ _ _ L hm sC' en gC' ht hi) big_distrr /=.
rewrite exchange_big /=; apply: eq_bigr => l _; rewrite big_distrr /=.
by apply: eq_bigr => t _; rewrite mulrCA.
Qed.

Lemma setc_tt (cs : seq arr) m C' : wf_tt cs -> (m < size cs)%N -> nwf C' -> nshape C' = nshape (nth (Nd [::] [::]) cs m) ->
  [/\ wf_tt (setc m cs C'), tshape (TT (setc m cs C')) = tshape (TT cs) & tt_rank (setc m cs C') = tt_rank cs].
Proof.
move=> /andP[n0 L] hm w s; have [L' e1 e0] := setc_links L hm w s; split=> //.
  by rewrite /wf_tt L' andbT /nilp size_cat /= addnS.
by rewrite /tt_rank -!behead_map e0.
Qed.

Lemma pysetE (cs : seq arr) m C' : (m < size cs)%N -> pyset cs m C' = Ok (setc m cs C').
Proof. by rewrite /pyset => ->. Qed.

Lemma tt_core_shape (cs : seq arr) m : wf_tt cs -> (m < size cs)%N -> let C := nth (Nd [::] [::]) cs m in
  nwf C /\ nshape C = [:: dim C 0; nth 0%N (tshape (TT cs)) m; dim C 2].
Proof.
move=> /andP[_ L] hm C; have gen a b : links a cs b -> nwf C /\ nshape C = [:: dim C 0; dim C 1; dim C 2].
  rewrite /C {C L}; elim: cs a m hm => [|D cs IH] a [|m] //=.
    by move=> _ /and3P[w /eqP s _]; split=> //; rewrite {1}s; congr [:: _; _; _]; rewrite /dim s.
  by move=> hm /and3P[_ _ L]; apply: IH hm L.
have [w s] := gen _ _ L.
by split=> //; rewrite /= (nth_map (Nd [::] [::])) -/C.
Qed.

(* ---- matrices ---- *)
Lemma amatE (A : arr) m n (i : 'I_m) (j : 'I_n) : amat A m n i j = get A [:: nat_of_ord i; nat_of_ord j].
Proof. by rewrite mxE. Qed.

Lemma amat_inj (A B : arr) m n : is_mat A m n -> is_mat B m n -> amat A m n = amat B m n -> A = B.
Proof.
move=> [wA sA] [wB sB] e; apply: nd_ext => //; first by rewrite sA sB.
rewrite sA => ij /inb2P[i [j [-> hi hj]]].
by have := congr1 (fun M => fun_of_matrix M (Ordinal hi) (Ordinal hj)) e; rewrite !mxE.
Qed.

Lemma amat_mul (A B D : arr) m n p : (forall i j, (i < m)%N -> (j < p)%N ->
    get D [:: i; j] = \sum_(0 <= l < n) get A [:: i; l] * get B [:: l; j]) ->
  amat D m p = amat A m n *m amat B n p.
Proof.
move=> h; apply/matrixP => i j; rewrite !mxE h // big_mkord.
by apply: eq_bigr => l _; rewrite !mxE.
Qed.
Lemma amat_mulr (A B D : arr) m n p : amat D m p = amat A m n *m amat B n p ->
  forall i j, (i < m)%N -> (j < p)%N -> get D [:: i; j] = \sum_(0 <= l < n) get A [:: i; l] * get B [:: l; j].
Proof.
move=> e i j hi hj; have := congr1 (fun M => fun_of_matrix M (Ordinal hi) (Ordinal hj)) e; rewrite !mxE => ->.
by rewrite big_mkord; apply: eq_bigr => l _; rewrite !mxE.
Qed.

Lemma amat_tr (A : arr) m n : nshape A = [:: m; n] -> amat (tr A) n m = (amat A m n)^T.
Proof. by move=> s; apply/matrixP => i j; rewrite !mxE (get_tr s). Qed.

Lemma ocols_mx (Q : arr) m n : ocols Q m n -> (amat Q m n)^T *m amat Q m n = 1%:M.
Proof.
move=> h; apply/matrixP => i j; rewrite !mxE -(h i j) // big_mkord; apply: eq_bigr => l _; by rewrite !mxE.
Qed.

Lemma upper_unit (T : arr) n : upper_tri T n n ->
  (amat T n n \in unitmx) = all (fun i => get T [:: i; i] != 0) (iota 0 n).
Proof.
move=> h; rewrite unitmxE unitfE -det_tr det_trig; last first.
  apply/is_trig_mxP => i j hij; rewrite !mxE; apply: h => //; by rewrite hij /=.
apply/idP/allP => [/prodf_neq0 H i|H].
  by rewrite mem_iota add0n => /andP[_ hi]; have := H (Ordinal hi) isT; rewrite !mxE.
by apply/prodf_neq0 => i _; rewrite !mxE; apply: H; rewrite mem_iota add0n /=.
Qed.

Definition mxn n (M : 'M[R]_n) (k l : nat) : R :=
  if (insub k : option 'I_n) is Some k' then if (insub l : option 'I_n) is Some l' then M k' l' else 0 else 0.
Lemma mxnE n (M : 'M[R]_n) (k l : 'I_n) : mxn M k l = M k l.
Proof. by rewrite /mxn !valK. Qed.
Lemma mode_mulE n (M : 'M[R]_n) m x i :
  mode_mul M m x i = \sum_(0 <= l < n) mxn M (nth 0%N i m) l * x (upd i m l).
Proof.
rewrite big_mkord /mode_mul; apply: eq_bigr => l _; rewrite /mxn valK.
by case: insub.
Qed.

Variables (qr : arr -> res (arr * arr)) (solve_tri : arr -> arr -> res arr).
Hypotheses (qrP : qr_tri_contract qr) (solP : solve_tri_contract solve_tri).

Lemma precond_fac (A : arr) n s m p : is_mat A n n -> precond_new qr A s m = Ok p ->
  [/\ is_mat (p_Q p) n n /\ is_mat (p_R p) n n,
      (amat (p_Q p) n n)^T *m amat (p_Q p) n n = 1%:M,
      amat A n n = amat (p_Q p) n n *m amat (p_R p) n n,
      upper_tri (p_R p) n n & [/\ p_A p = A, p_mode p = m & p_shape p = s]].
Proof.
move=> hA; rewrite /precond_new; have := qrP.1 A n n hA; have := qrP.2 A n n hA; rewrite minnn.
case: (qr A) => [[Q Rm]|] //= hU [hQ hR oQ hm] [<-] /=; split=> //; first exact: ocols_mx.
exact: amat_mul.
Qed.

Lemma forwardE (p : precond R) cs n (M : 'M[R]_n) : wf_tt cs -> (p_mode p < size cs)%N -> n = nth 0%N (tshape (TT cs)) (p_mode p) ->
  is_mat (p_A p) n n -> M = amat (p_A p) n n ->
  exists2 ys, precond_forward p cs = Ok ys &
  [/\ wf_tt ys, tshape (TT ys) = tshape (TT cs), tt_rank ys = tt_rank cs &
      forall i, inb (tshape (TT cs)) i -> den (TT ys) i = mode_mul M (p_mode p) (den (TT cs)) i].
Proof.
move=> w hm en hA eM; have [wC sC] := tt_core_shape w hm; rewrite -en in sC.
rewrite /precond_forward (pygetE (Nd [::] [::]) hm) /=; set C := nth _ cs _ in wC sC *.
have [Mt -> [hMt gMt]] := mat1E wC sC => /=.
have [B -> [hB gB]] := matmulE hA hMt => /=.
rewrite sC; have [C' -> [wC' sC' gC']] := demat1E hB; rewrite /= pysetE //.
have sCC : nshape C' = nshape C by rewrite sC' sC.
have [wy sy ry] := setc_tt w hm wC' sCC.
exists (setc (p_mode p) cs C') => //; split=> // i hi; rewrite mode_mulE.
apply: (@setc_chain 1 cs 1) => //; first by case/andP: w.
  by rewrite /dim -/C sC.
rewrite -/C => x k y hx hk hy; rewrite gC' // gB //; last exact: flat_lt.
rewrite !big_mkord; apply: eq_bigr => l _; rewrite gMt // eM.
by rewrite (mxnE _ (Ordinal hk) l) mxE.
Qed.

Lemma backwardE (p : precond R) cs n s : wf_tt cs -> (p_mode p < size cs)%N -> n = nth 0%N (tshape (TT cs)) (p_mode p) ->
  is_mat (p_A p) n n -> precond_new qr (p_A p) s (p_mode p) = Ok p ->
  if amat (p_A p) n n \in unitmx then
    exists2 ys, precond_backward solve_tri p cs = Ok ys &
    [/\ wf_tt ys, tshape (TT ys) = tshape (TT cs), tt_rank ys = tt_rank cs &
        forall i, inb (tshape (TT cs)) i -> den (TT ys) i = mode_mul (invmx (amat (p_A p) n n)) (p_mode p) (den (TT cs)) i]
  else precond_backward solve_tri p cs = Err LinAlgError.
Proof.
move=> w hm en hA enew; have [wC sC] := tt_core_shape w hm; rewrite -en in sC.
have [[hQ hR] oQ eA hU _] := precond_fac hA enew.
rewrite /precond_backward (pygetE (Nd [::] [::]) hm) /=; set C := nth _ cs _ in wC sC *.
have [Mt -> [hMt gMt]] := mat1E wC sC => /=.
have hQt : is_mat (tr (p_Q p)) n n by case: hQ => wQ sQ; split; [exact: nwf_tab|rewrite (nshape_tr sQ)].
have [B -> [hB gB]] := matmulE hQt hMt => /=.
have -> : solve_triangular solve_tri (p_R p) B = solve_tri (p_R p) B.
  by case: hR => _ sR; case: hB => _ sB; rewrite /solve_triangular /ndim /dim sR sB /= eqxx.
have uQ : amat (p_Q p) n n \in unitmx by case/mulmx1_unit: oQ.
rewrite eA unitmx_mul uQ /= upper_unit //; have := solP hR hB hU.
case: ifP => hd; last by move=> -> .
move=> [X -> [hX gX]] /=; rewrite sC; have [C' -> [wC' sC' gC']] := demat1E hX; rewrite /= pysetE //.
have sCC : nshape C' = nshape C by rewrite sC' sC.
have [wy sy ry] := setc_tt w hm wC' sCC.
have uR : amat (p_R p) n n \in unitmx by rewrite upper_unit.
have eX : amat X n (dim C 0 * dim C 2) = invmx (amat (p_A p) n n) *m amat Mt n (dim C 0 * dim C 2).
  have h1 : amat (p_R p) n n *m amat X n (dim C 0 * dim C 2) = (amat (p_Q p) n n)^T *m amat Mt n (dim C 0 * dim C 2).
    rewrite -(amat_tr (proj2 hQ)) -(amat_mul gB); apply/matrixP => i j; rewrite !mxE -gX // big_mkord.
    by apply: eq_bigr => l _; rewrite !mxE.
  have uA : amat (p_A p) n n \in unitmx by rewrite eA unitmx_mul uQ uR.
  apply: (can_inj (mulKmx uA)); rewrite mulKVmx // eA -mulmxA h1 mulmxA.
  by rewrite (mulmx1C oQ) mul1mx.
exists (setc (p_mode p) cs C') => //; split=> // i hi; rewrite mode_mulE.
apply: (@setc_chain 1 cs 1) => //; first by case/andP: w.
  by rewrite /dim -/C sC.
rewrite -/C => x k y hx hk hy; rewrite gC' //.
have hxy : (x * dim C 2 + y < dim C 0 * dim C 2)%N by exact: flat_lt.
have := congr1 (fun M => fun_of_matrix M (Ordinal hk) (Ordinal hxy)) eX; rewrite !mxE /= => ->.
rewrite big_mkord; apply: eq_bigr => l _; rewrite -eA mxE /= gMt //.
by rewrite (mxnE _ (Ordinal hk) l).
Qed.
End Prec.
