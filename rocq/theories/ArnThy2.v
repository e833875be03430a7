(* Arnoldi processes: prefixes, Krylov spaces, breakdown. *)
From mathcomp Require Import all_ssreflect all_algebra.
From mathcomp Require Import zify.
From Verif Require Import Py Nd Spec ArnSpec ChainThy GmresThy1 GmresMath ArnThy.
Set Implicit Arguments. Unset Strict Implicit. Unset Printing Implicit Defensive.
Import GRing.Theory Num.Theory Order.POrderTheory.
Local Open Scope ring_scope.

Section Kernel.
Variable F : fieldType.
Implicit Types (H : nat -> nat -> F).

Definition hmat H m n : 'M[F]_(m, n) := \matrix_(i, j) H (nat_of_ord i) (nat_of_ord j).

Lemma kernel_ex H m n : \rank (hmat H m n) != n ->
  exists2 z : nat -> F, exists2 q, (q < n)%N & z q != 0 & forall p, (p < m)%N -> \sum_(0 <= q < n) H p q * z q = 0.
Proof.
move=> hr; have hk : kermx (hmat H m n)^T != 0 by rewrite kermx_eq0 /row_free mxrank_tr.
have [i hi] : exists i, row i (kermx (hmat H m n)^T) != 0.
  apply/existsP/contraT; rewrite negb_exists => /forallP h; case/eqP: hk; apply/row_matrixP => i.
  by rewrite row0; apply/eqP; have := h i; rewrite negbK.
set v := row i _ in hi.
have hv : v *m (hmat H m n)^T = 0 by apply/sub_kermxP; exact: row_sub.
clearbody v.
exists (fun q => if insub q is Some j then v 0 j else 0).
  have [j hj] : exists j, v 0 j != 0.
    apply/existsP/contraT; rewrite negb_exists => /forallP h; case/eqP: hi; apply/rowP => j.
    by rewrite [RHS]mxE; apply/eqP; have := h j; rewrite negbK.
  by exists (nat_of_ord j) => //; rewrite valK.
move=> p hp; have := congr1 (fun M : 'rV_m => M 0 (Ordinal hp)) hv; rewrite mxE [RHS]mxE => e; rewrite -[RHS]e {e}.
rewrite big_mkord; apply: eq_bigr => j _; by rewrite valK !mxE mulrC.
Qed.

Lemma kernel_full H m n z : \rank (hmat H m n) = n -> (forall p, (p < m)%N -> \sum_(0 <= q < n) H p q * z q = 0) ->
  forall q, (q < n)%N -> z q = 0.
Proof.
move=> hr hz q hq; have hf : row_free (hmat H m n)^T by rewrite /row_free mxrank_tr hr.
have h0 : (\row_(j < n) z (nat_of_ord j)) = 0.
  apply: (row_free_inj hf); rewrite mul0mx; apply/rowP => p; rewrite !mxE -[RHS](hz p (ltn_ord p)) big_mkord.
  by apply: eq_bigr => j _; rewrite !mxE mulrC.
by have := congr1 (fun M : 'rV_n => M 0 (Ordinal hq)) h0; rewrite !mxE.
Qed.

(* with full rank and a zero last row the square part can be solved *)
Lemma square_solve H n (b : nat -> F) : \rank (hmat H n.+1 n) = n -> (forall q, (q < n)%N -> H n q = 0) ->
  exists y, forall p, (p < n)%N -> \sum_(0 <= q < n) H p q * y q = b p.
Proof.
move=> hr h0.
have u : hmat H n n \in unitmx.
  rewrite -unitmx_tr -row_free_unit -kermx_eq0; apply/eqP/row_matrixP => i; rewrite row0.
  set v := row i _; have hv : v *m (hmat H n n)^T = 0 by apply/sub_kermxP; exact: row_sub.
  clearbody v.
  apply/rowP => j; rewrite mxE.
  have := @kernel_full H n.+1 n (fun q => if insub q is Some j then v 0 j else 0) hr _ (nat_of_ord j) (ltn_ord j).
  rewrite valK; apply=> p; rewrite ltnS leq_eqVlt => /orP[/eqP ->|hp].
    by rewrite big_nat big1 // => q /andP[_ hq]; rewrite h0 // mul0r.
  have := congr1 (fun M : 'rV_n => M 0 (Ordinal hp)) hv; rewrite mxE [RHS]mxE => e; rewrite -[RHS]e {e}.
  by rewrite big_mkord; apply: eq_bigr => l _; rewrite valK !mxE mulrC.
pose y := invmx (hmat H n n) *m (\col_(p < n) b (nat_of_ord p)).
exists (fun q => if insub q is Some j then y j 0 else 0) => p hp.
have := congr1 (fun M : 'cV_n => M (Ordinal hp) 0) (mulKVmx u (\col_(p < n) b (nat_of_ord p))); rewrite !mxE => <-.
by rewrite big_mkord; apply: eq_bigr => l _; rewrite valK !mxE.
Qed.

(* Hessenberg with nonzero subdiagonal but for the last entry: rank deficient only if that is zero *)
Lemma hess_deficient H n z : (forall p q, (p <= n)%N -> (q.+1 < p)%N -> H p q = 0) -> (forall j, (j.+1 < n)%N -> H j.+1 j != 0) ->
  (exists2 q, (q < n)%N & z q != 0) -> (forall p, (p < n.+1)%N -> \sum_(0 <= q < n) H p q * z q = 0) -> H n n.-1 = 0.
Proof.
move=> hz hs [q0 hq0 zq0] hk.
have ex : exists q, (q < n)%N && (z q != 0) by exists q0; rewrite hq0.
have [q /andP[hq zq] mx] := @ex_maxnP _ n ex (fun q h => ltnW (proj1 (andP h))).
have := hk q.+1 hq; rewrite (big_cat_nat _ (n := q)) //=; last exact: ltnW.
rewrite big_nat big1 ?add0r; last by move=> l /andP[_ hl]; rewrite hz ?mul0r.
rewrite big_ltn // big_nat [X in _ + X]big1 ?addr0; last first.
  move=> l /andP[h1 h2]; have [->|zl] := eqVneq (z l) 0; first by rewrite mulr0.
  by have := mx l; rewrite h2 zl => /(_ isT); clear -h1; lia.
move/eqP; rewrite mulf_eq0 (negPf zq) orbF => /eqP h.
case: (ltnP q.+1 n) => hn; first by have := hs q hn; rewrite h eqxx.
by have -> : n = q.+1 by clear -hq hn; lia.
Qed.
End Kernel.

Section Arn2.
Variable R : rcfType.
Variable s : seq nat.
Notation fn := (seq nat -> R).
Notation eqf := (eqf s).
Notation nrm := (norm2 s).
Variables (op : fn -> fn) (sym : bool) (b x0 : fn) (k : nat) (inp out : nat -> fn) (beta : R) (nu : nat -> fn) (H : nat -> nat -> R).
Hypothesis opl : linear_op s op.
Hypothesis a : arnoldi s op sym b x0 k inp out beta nu H.

Lemma arn_prefix k' : (k' <= k)%N -> arnoldi s op sym b x0 k' inp out beta nu H.
Proof.
move=> h; have hj j : (j < k')%N -> (j < k)%N by move=> hh; apply: leq_trans h.
split; [exact: arn_inp0 a|exact: arn_beta a|exact: arn_nu0 a|by move=> j /hj h1; apply: (arn_inp1 a)| |by move=> j /hj h1; apply: (arn_inp2 a)|by move=> j /hj h1; apply: (arn_nu a)].
by move=> p j /hj h1 hp; apply: (arn_H a) => //; apply: leq_trans h.
Qed.

(* ---- Krylov spaces ---- *)
Let r : fn := fun i => b i - op x0 i.
Definition inK (m : nat) (x : fn) : Prop := exists c : nat -> R, eqf x (fun i => \sum_(0 <= p < m) c p * iter p op r i).

Lemma inK_lin m c x y : inK m x -> inK m y -> inK m (fun i => c * x i + y i).
Proof.
move=> [d hd] [e he]; exists (fun p => c * d p + e p) => i hi; rewrite hd // he // big_distrr -big_split /=.
by apply: eq_bigr => p _; rewrite mulrDl mulrA.
Qed.
Lemma inK_ext m x y : eqf x y -> inK m y -> inK m x.
Proof. by move=> h [d hd]; exists d => i hi; rewrite h // hd. Qed.
Lemma inK0 m : inK m (fun=> 0).
Proof. by exists (fun=> 0) => i _; rewrite big1 // => p _; rewrite mul0r. Qed.
Lemma inK_le m m' x : (m <= m')%N -> inK m x -> inK m' x.
Proof.
move=> h [d hd]; exists (fun p => if (p < m)%N then d p else 0) => i hi; rewrite hd //.
rewrite [RHS](big_cat_nat _ (n := m)) //= [X in _ = _ + X]big_nat [X in _ = _ + X]big1 ?addr0; last first.
  by move=> p /andP[h1 _]; rewrite ltnNge h1 mul0r.
by apply: eq_big_nat => p /andP[_ ->].
Qed.
Lemma inK_op m x : inK m x -> inK m.+1 (op x).
Proof.
move=> [d hd]; exists (fun p => if p is p'.+1 then d p' else 0) => i hi.
rewrite (opl.1 _ _ hd i hi) (lin_sum _ _ _ (opL opl) hi) big_nat_recl // mul0r add0r.
by apply: eq_bigr.
Qed.
Lemma inK_sum m n (c : nat -> R) (x : nat -> fn) : (forall l, (l < n)%N -> inK m (x l)) -> inK m (fun i => \sum_(0 <= l < n) c l * x l i).
Proof.
elim: n => [|n IH] h; first by apply: inK_ext (inK0 m) => i _; rewrite big_geq.
apply: (@inK_ext m _ (fun i => c n * x n i + \sum_(0 <= l < n) c l * x l i)) => [i _|]; first by rewrite big_nat_recr //= addrC.
by apply: inK_lin; [exact: h|apply: IH => l hl; apply: h; exact: ltnW].
Qed.

Lemma nu_inK l : all_exact s op sym k inp out -> no_breakdown k beta H -> (l < k)%N -> inK l.+1 (nu l).
Proof.
move=> ex [b0 nb]; elim/ltn_ind: l => l IH hl; case: l IH hl => [|l] IH hl.
  exists (fun=> beta^-1) => i hi; rewrite big_nat1 /= /r (exact_ini a ex hi) mulrA mulVf // mul1r //.
have h0 := nb l hl.
apply: (@inK_ext _ _ (fun i => (H l.+1 l)^-1 * (fun i => -1 * (\sum_(0 <= p < l.+1) H p l * nu p i) + op (nu l) i) i + 0)).
  move=> i hi /=; rewrite addr0 (exact_rel a ex (ltnW hl) hi).
  have -> : \sum_(0 <= p < k.+1) H p l * nu p i = \sum_(0 <= p < l.+2) H p l * nu p i.
    rewrite (big_cat_nat _ (n := l.+2)) //=; last by clear -hl; lia.
    rewrite [X in _ + X]big_nat [X in _ + X]big1 ?addr0 // => p /andP[h1 h2]; rewrite (H_zero a) ?mul0r //; clear -hl h1 h2; lia.
  by rewrite [X in _ + X]big_nat_recr //= mulN1r addKr mulrA mulVf // mul1r.
apply: inK_lin (inK0 _); apply: inK_lin.
  by apply: inK_sum => p hp; apply: (@inK_le p.+1); [lia|apply: IH; lia].
by apply: inK_op; apply: IH => //; exact: ltnW.
Qed.

Lemma combine_inK y : all_exact s op sym k inp out -> no_breakdown k beta H ->
  exists z, eqf (combine x0 k y nu) (combine x0 k z (fun p => iter p op r)).
Proof.
move=> ex nb; have [z hz] : inK k (fun i => \sum_(0 <= l < k) y l * nu l i).
  by apply: inK_sum => l hl; apply: inK_le (nu_inK ex nb hl).
by exists z => i hi; rewrite /combine hz.
Qed.

Lemma nrm0_eqf (x : fn) : nrm x = 0 -> eqf x (fun=> 0).
Proof. by move=> h i hi; apply: (nrm_eq0 h hi). Qed.

(* an exact process with an injective operator never has a rank deficient Hessenberg matrix *)
Lemma exact_full z : (forall x, eqf (op x) (fun=> 0) -> eqf x (fun=> 0)) -> all_exact s op sym k inp out -> no_breakdown k beta H ->
  (forall p, (p < k.+1)%N -> \sum_(0 <= q < k) H p q * z q = 0) -> forall q, (q < k)%N -> z q = 0.
Proof.
move=> inj ex nb hz q hq.
have h0 : eqf (fun i => \sum_(0 <= l < k) z l * nu l i) (fun=> 0).
  apply: inj => i hi; rewrite (lin_sum _ _ _ (opL opl) hi).
  rewrite (eq_big_nat _ _ (F2 := fun l => \sum_(0 <= p < k.+1) H p l * z l * nu p i)); last first.
    move=> l /andP[_ hl]; rewrite (exact_rel a ex hl hi) big_distrr /=; apply: eq_bigr => p _; by rewrite mulrA [z l * _]mulrC.
  rewrite exchange_big_nat /= big_nat big1 // => p /andP[_ hp]; rewrite -big_distrl /= hz // mul0r //.
have := ip0l (nu q) h0; rewrite ip_sum => e.
have : \sum_(0 <= l < k) z l * ipr s (nu l) (nu q) = z q.
  rewrite (bigD1_seq q) ?mem_index_iota ?iota_uniq //= big_nat_cond big1 ?addr0; last first.
    move=> l /andP[hl hne]; have ok := exact_ortho a ex.
    move: hne; rewrite neq_ltn => /orP[h|h]; last by rewrite (ortho a ok (leqnn k)) ?mulr0 //; lia.
    by rewrite ip_sym (ortho a ok (leqnn k)) ?mulr0 //; lia.
  have := nu_norm a (ltnW hq); rewrite -nrm_sq => ->.
  have -> : (if q is j.+1 then H j.+1 j else beta) != 0 by case: nb => b0 nb; case: (q) hq => // j; exact: nb.
  by rewrite expr1n mulr1.
by move=> <-.
Qed.

Lemma exact_solution y : all_exact s op sym k inp out -> no_breakdown k beta H -> small_sq H beta k y = 0 ->
  eqf (op (combine x0 k y nu)) b.
Proof.
move=> ex nb h0; have := exact_residual opl a y ex nb; rewrite h0 sqrtr0 => /nrm0_eqf h i hi.
by apply/esym/eqP; rewrite -subr_eq0; apply/eqP; exact: h.
Qed.

Lemma exact_no_solution y r0 z m : all_exact s op sym k inp out -> no_breakdown k beta H -> is_lsq H beta k y r0 -> r0 != 0 -> (m <= k)%N ->
  ~ eqf (op (combine x0 m z (fun p => iter p op r))) b.
Proof.
move=> ex nb [er mn] hr hm h; have [c hc] := krylov_combine opl a z ex hm.
have := exact_residual opl a c ex nb; rewrite (_ : nrm _ = 0) => [/esym/eqP|]; last first.
  rewrite (@eqf_norm _ _ _ (fun=> 0)) ?nrm0 // => i hi; rewrite -(opl.1 _ _ hc i hi) h // subrr //.
rewrite sqrtr_eq0 => le; have : r0 <= 0 by apply: le_trans (mn c) le.
rewrite er => ge; move/eqP: hr; apply; rewrite er; apply: le_anti; rewrite ge /=.
by apply: sumr_ge0 => p _; exact: sqr_ge0.
Qed.
End Arn2.

(* breakdown with full rank: the small system is solved exactly *)
Lemma lsq_breakdown (R : rcfType) (H : nat -> nat -> R) beta k y r : (0 < k)%N -> is_lsq H beta k y r ->
  \rank (hmat H k.+1 k) = k -> (forall q, (q < k)%N -> H k q = 0) -> r = 0.
Proof.
move=> k0 [er mn] hr h0; have [z hz] := square_solve (fun p => if p == 0%N then beta else 0) hr h0.
apply: le_anti; apply/andP; split; last by rewrite er; apply: sumr_ge0 => p _; exact: sqr_ge0.
apply: le_trans (mn z) _; rewrite /small_sq big_nat_recr //= big_nat big1 ?add0r; last first.
  by move=> p /andP[_ hp]; rewrite hz // subrr expr0n.
rewrite big_nat big1; last by move=> q /andP[_ hq]; rewrite h0 // mul0r.
by rewrite (gtn_eqF k0) subrr expr0n.
Qed.
