(* The inexact Arnoldi process of ArnSpec.v: Arnoldi relation, residuals, orthogonality, optimality. *)
From Coq Require Import String Ascii NArith.
From mathcomp Require Import all_ssreflect all_algebra.
From mathcomp Require Import zify.
From Verif Require Import Py Nd Tensor Spec GmresSpec ArnSpec NdThy ChainThy NormThy GmresThy1 GmresMath.
Set Implicit Arguments. Unset Strict Implicit. Unset Printing Implicit Defensive.
Import GRing.Theory Num.Theory Order.POrderTheory.
Local Open Scope ring_scope.

Section Arn.
Variable R : rcfType.
Variable s : seq nat.
Notation fn := (seq nat -> R).
Local Notation ip := (@ipr R s).
Local Notation nrm := (@norm2 R s).
Local Notation eqf := (@eqf R s).

Lemma window_uniq sym i : uniq (window sym i). Proof. by rewrite /window; case: sym; exact: iota_uniq. Qed.
Lemma window_le sym i p : p \in window sym i -> (p <= i)%N.
Proof. by rewrite /window; case: sym; rewrite mem_iota; lia. Qed.
Lemma window_full i p : (p \in window false i) = (p <= i)%N.
Proof. by rewrite /window mem_iota. Qed.
Lemma window_sym i p : (p \in window true i) = (i - 2 <= p <= i)%N.
Proof. by rewrite /window mem_iota; lia. Qed.
Lemma window_last sym i : i \in window sym i.
Proof. by case: sym; rewrite ?window_full ?window_sym; lia. Qed.

Lemma sum_window sym j k (f : nat -> R) g : (j < k)%N ->
  \sum_(0 <= p < k.+1) (if p \in window sym j then f p else if p == j.+1 then g else 0) = \sum_(p <- window sym j) f p + g.
Proof.
move=> jk; rewrite (bigID (fun p => p \in window sym j)) /=; congr (_ + _).
  rewrite -big_filter; rewrite [RHS](perm_big [seq p <- index_iota 0 k.+1 | p \in window sym j]).
    by rewrite [LHS]big_seq [RHS]big_seq; apply: eq_bigr => p; rewrite mem_filter => /andP[-> _].
  apply: uniq_perm; [exact: window_uniq | by rewrite filter_uniq // iota_uniq|].
  move=> p; rewrite mem_filter mem_index_iota; case e: (p \in window sym j) => //=.
  by have := window_le e; lia.
have hj : (j.+1 \in index_iota 0 k.+1) by rewrite mem_index_iota.
have nw : (j.+1 \in window sym j) = false by apply/negP => /window_le; rewrite ltnn.
rewrite big_mkcond (bigD1_seq j.+1) ?iota_uniq //= nw eqxx big1 ?addr0 // => p /negPf ->.
by case: (p \in _).
Qed.

Lemma eqf_norm x y : eqf x y -> nrm x = nrm y. Proof. exact: nrm_ext. Qed.
Lemma eqf_ip x x' y y' : eqf x x' -> eqf y y' -> ip x y = ip x' y'. Proof. exact: ip_ext. Qed.

Lemma ipZ c x y : ip (fun i => c * x i) y = c * ip x y.
Proof.
have z0 : ip (fun=> 0) y = 0 by rewrite /ipr -[RHS](@sum_idx0 R s); apply: eq_sum_idx => i _; rewrite mul0r.
rewrite -[RHS]addr0 -[in RHS]z0 -ip_lin; by apply: ip_ext => // i _; rewrite addr0.
Qed.
Lemma ipB x y z : ip (fun i => x i - y i) z = ip x z - ip y z.
Proof.
rewrite addrC -[X in X + _]mulN1r -ip_lin; by apply: ip_ext => // i _; rewrite mulN1r addrC.
Qed.
Lemma ip_seq (W : seq nat) (c : nat -> R) (f : nat -> fn) z : ip (fun i => \sum_(p <- W) c p * f p i) z = \sum_(p <- W) c p * ip (f p) z.
Proof.
elim: W => [|p W IH].
  by rewrite big_nil -[RHS](@sum_idx0 R s); apply: eq_sum_idx => i _; rewrite big_nil mul0r.
rewrite big_cons -IH -ip_lin; by apply: ip_ext => // i _; rewrite big_cons.
Qed.
Lemma ip0l x y : eqf x (fun=> 0) -> ip x y = 0.
Proof. by move=> h; rewrite /ipr -[RHS](@sum_idx0 R s); apply: eq_sum_idx => i hi; rewrite h // mul0r. Qed.
Lemma ip0r x y : eqf y (fun=> 0) -> ip x y = 0.
Proof. by move=> h; rewrite ip_sym ip0l. Qed.

(* out / nrm out *)
Lemma unit_norm x : nrm (fun i => x i / nrm x) = (nrm x != 0)%:R.
Proof.
rewrite (_ : nrm _ = nrm (fun i => (nrm x)^-1 * x i)); last by apply: nrm_ext => i _; rewrite mulrC.
rewrite nrmZ ger0_norm ?invr_ge0 ?nrm_ge0 //; case: eqVneq => [->|h]; first by rewrite mulr0.
by rewrite mulVf.
Qed.
Lemma unit_back x : eqf (fun i => nrm x * (x i / nrm x)) x.
Proof.
move=> i hi /=; case: (eqVneq (nrm x) 0) => [h|h]; last by rewrite mulrC divfK.
by rewrite h mul0r (nrm_eq0 h hi).
Qed.

Variables (op : fn -> fn) (sym : bool) (b x0 : fn) (k : nat) (inp out : nat -> fn) (beta : R) (nu : nat -> fn) (H : nat -> nat -> R).
Hypothesis opl : linear_op s op.
Hypothesis a : arnoldi s op sym b x0 k inp out beta nu H.

Let err l i := inp l i - out l i.
Let e j i := err (2 * j + 1)%N i + err (2 * j + 2)%N i.

Lemma opL : linear_on s s op.
Proof. by case: opl => h1 h2; split=> *; [apply: h1 | apply: h2]. Qed.

Lemma H_sub j : (j < k)%N -> H j.+1 j = nrm (out (2 * j + 2)%N).
Proof.
move=> hj; rewrite (arn_H a) // ifF ?eqxx //; by apply/negP => /window_le; rewrite ltnn.
Qed.
Lemma H_zero p j : (j < k)%N -> (p <= k)%N -> (j.+1 < p)%N -> H p j = 0.
Proof.
move=> hj hp jp; rewrite (arn_H a) // ifF; last by apply/negP => /window_le; lia.
by rewrite ifF //; lia.
Qed.

Lemma nu_norm l : (l <= k)%N -> nrm (nu l) = ((if l is j.+1 then H j.+1 j else beta) != 0)%:R.
Proof.
case: l => [_|j hj]; first by rewrite (eqf_norm (arn_nu0 a)) (arn_beta a) unit_norm.
by rewrite (eqf_norm (arn_nu a hj)) H_sub // unit_norm.
Qed.
Lemma nu_le1 l : (l <= k)%N -> nrm (nu l) <= 1.
Proof. by move=> /nu_norm ->; case: eqP; rewrite ?ler01 ?lexx. Qed.

Lemma H_nu j : (j < k)%N -> eqf (fun i => H j.+1 j * nu j.+1 i) (out (2 * j + 2)%N).
Proof.
move=> hj i hi; rewrite (arn_nu a hj hi) H_sub //; exact: (@unit_back (out (2 * j + 2)%N)).
Qed.

Lemma arn_rel j i : (j < k)%N -> inb s i -> op (nu j) i = \sum_(0 <= l < k.+1) H l j * nu l i + e j i.
Proof.
move=> hj hi; rewrite -(arn_inp1 a hj hi).
have -> : \sum_(0 <= l < k.+1) H l j * nu l i = \sum_(p <- window sym j) H p j * nu p i + H j.+1 j * nu j.+1 i.
  rewrite -(@sum_window sym j k) //; apply: eq_big_nat => p /andP[_ hp].
  case: ifP => // hw; case: eqVneq => [->//|hne]; by rewrite (arn_H a) // hw (negPf hne) mul0r.
rewrite (H_nu hj hi) /e /err (arn_inp2 a hj hi).
move: (\sum_(p <- _) _) (inp _ i) (out _ i) (out _ i) => S x y z.
by rewrite -[y - S - z]addrA -opprD addrA subrK addrC subrK.
Qed.

Lemma arn_ini i : inb s i -> b i - op x0 i = beta * nu 0%N i + err 0%N i.
Proof.
move=> hi; rewrite -(arn_inp0 a hi) (arn_nu0 a hi) (arn_beta a).
by rewrite (@unit_back (out 0%N) _ hi) /err addrC subrK.
Qed.

Lemma combine_norm y : nrm (fun i => b i - op (combine x0 k y nu) i) <=
  Num.sqrt k.+1%:R * Num.sqrt (small_sq H beta k y) + call_err s inp out 0 +
  \sum_(0 <= j < k) `|y j| * (call_err s inp out (2 * j + 1)%N + call_err s inp out (2 * j + 2)%N).
Proof.
apply: le_trans (residual_bound opL arn_rel arn_ini nu_le1 y) _.
rewrite ler_add2l; apply: ler_sum => j _; apply: ler_wpmul2l; [exact: normr_ge0|exact: triangle].
Qed.

(* ---- orthogonality ---- *)
Definition ortho_ok : Prop := (forall j, (j < k)%N -> exact_call s inp out (2 * j + 2)%N) /\
  (sym -> self_adjoint s op /\ forall j, (j < k)%N -> exact_call s inp out (2 * j + 1)%N).

Lemma exact0 l i : exact_call s inp out l -> inb s i -> err l i = 0.
Proof. by move=> h hi; rewrite /err h // subrr. Qed.

Lemma ortho m : ortho_ok -> (m <= k)%N -> forall p q, (p <= m)%N -> (q < p)%N -> ip (nu p) (nu q) = 0.
Proof.
move=> [ex hs]; elim: m => [|m IH] hm p q hp hq; first by move: hq; rewrite (_ : p = 0%N) //; lia.
move: hp; rewrite leq_eqVlt => /orP[/eqP ep|hp]; last by apply: IH => //; lia.
subst p; have hq' : (q <= m)%N by lia.
have IH' p q' : (p <= m)%N -> (q' <= m)%N -> p != q' -> ip (nu p) (nu q') = 0.
  move=> hp hq2; rewrite neq_ltn => /orP[h|h]; last by apply: IH => //; lia.
  by rewrite ip_sym; apply: IH => //; lia.
rewrite (eqf_ip (arn_nu a hm) (fun _ _ => erefl)).
rewrite (@eqf_ip _ (fun i => (H m.+1 m)^-1 * inp (2 * m + 2)%N i) _ (nu q)) //; last first.
  by move=> i hi; rewrite (ex m hm i hi) mulrC.
rewrite ipZ (eqf_ip (arn_inp2 a hm) (fun _ _ => erefl)) ipB ip_seq.
suff -> : ip (out (2 * m + 1)%N) (nu q) = \sum_(p <- window sym m) H p m * ip (nu p) (nu q) by rewrite subrr mulr0.
have z p : p \in window sym m -> p != q -> H p m * ip (nu p) (nu q) = 0.
  by move=> /window_le hp hne; rewrite IH' // mulr0.
case hw : (q \in window sym m).
  rewrite (bigD1_seq q) ?window_uniq //= big_seq_cond big1 => [|p /andP[hp hne]]; last exact: z.
  rewrite addr0 (arn_H a) // ?hw //; last by lia.
  have /esym := nrm_sq s (nu q); rewrite nu_norm; last by lia.
  case: eqP => _ /= e2; last by rewrite e2 expr1n mulr1.
  rewrite e2 expr0n /= mulr0; apply: ip0r => i hi; apply: (nrm_eq0 _ hi).
  by rewrite /norm2 e2 expr0n sqrtr0.
rewrite big_seq_cond big1 => [|p]; last first.
  by rewrite andbT => hp; apply: z => //; apply/eqP => epq; rewrite epq hw in hp.
case: sym hs hw => hs hw; last by rewrite window_full hq' in hw.
have [sa ex1] := hs isT; rewrite window_sym in hw.
have hqk : (q < k)%N by lia.
rewrite (@eqf_ip _ (op (nu m)) _ (nu q)) //; last by move=> i hi; rewrite -(ex1 m hm i hi) (arn_inp1 a hm hi).
rewrite sa ip_sym (@eqf_ip _ (fun i => \sum_(0 <= l < k.+1) H l q * nu l i) _ (nu m)) //; last first.
  by move=> i hi; rewrite arn_rel // /e !exact0 ?addr0 //; auto.
rewrite ip_sum big_nat big1 // => l /andP[_ hl].
case: (leqP l q.+1) => hl2; last by rewrite H_zero ?mul0r.
by rewrite IH' ?mulr0 //; lia.
Qed.

(* ---- the exact process ---- *)
Definition all_exact : Prop := (forall l, (l <= 2 * k)%N -> exact_call s inp out l) /\ (sym -> self_adjoint s op).
Definition no_breakdown : Prop := beta != 0 /\ forall j, (j.+1 < k)%N -> H j.+1 j != 0.

Lemma exact_ortho : all_exact -> ortho_ok.
Proof. by move=> [h1 h2]; split=> [j hj|hs]; [apply: h1; lia|split=> [|j hj]; [exact: h2|apply: h1; lia]]. Qed.

Lemma exact_rel j i : all_exact -> (j < k)%N -> inb s i -> op (nu j) i = \sum_(0 <= l < k.+1) H l j * nu l i.
Proof. by move=> [h _] hj hi; rewrite arn_rel // /e !exact0 ?addr0 //; apply: h; lia. Qed.
Lemma exact_ini i : all_exact -> inb s i -> b i - op x0 i = beta * nu 0%N i.
Proof. by move=> [h _] hi; rewrite arn_ini // exact0 ?addr0 //; apply: h. Qed.

Lemma sum_sq_ortho (c : nat -> R) : ortho_ok ->
  ip (fun i => \sum_(0 <= l < k.+1) c l * nu l i) (fun i => \sum_(0 <= l < k.+1) c l * nu l i) =
  \sum_(0 <= l < k.+1) c l ^+ 2 * nrm (nu l) ^+ 2.
Proof.
move=> ok; rewrite ip_sum; apply: eq_big_nat => l /andP[_ hl].
rewrite ip_sym ip_sum (bigD1_seq l) ?mem_index_iota ?iota_uniq //= big_seq_cond big1 ?addr0.
  by rewrite nrm_sq expr2 mulrA.
move=> p /andP[]; rewrite mem_index_iota => hp hne.
suff -> : ip (nu p) (nu l) = 0 by rewrite mulr0.
move: hne; rewrite neq_ltn => /orP[h|h]; last by apply: (ortho ok (leqnn k)) => //; lia.
by rewrite ip_sym; apply: (ortho ok (leqnn k)) => //; lia.
Qed.

Lemma exact_residual y : all_exact -> no_breakdown ->
  nrm (fun i => b i - op (combine x0 k y nu) i) = Num.sqrt (small_sq H beta k y).
Proof.
move=> ex [nb nH]; rewrite /norm2; congr Num.sqrt.
pose rho l := (if l == 0%N then beta else 0) - \sum_(0 <= j < k) H l j * y j.
have hr : eqf (fun i => b i - op (combine x0 k y nu) i) (fun i => \sum_(0 <= l < k.+1) rho l * nu l i).
  move=> i hi; rewrite /combine (@residual_id _ s op opL k nu H (fun _ _ => 0) beta b x0 (fun=> 0)) //.
  - by rewrite big1 ?subrr ?add0r // => j _; rewrite mulr0.
  - by move=> j i' hj hi'; rewrite addr0 exact_rel.
  - by move=> i' hi'; rewrite addr0 exact_ini.
rewrite (eqf_ip hr hr) sum_sq_ortho; last exact: exact_ortho.
apply: eq_big_nat => l /andP[_ hl].
have -> : (\sum_(0 <= q < k) H l q * y q - (if l == 0%N then beta else 0)) ^+ 2 = rho l ^+ 2 by rewrite -sqrrN opprB.
rewrite nu_norm //; case: l hl => [|l] hl; first by rewrite nb expr1n mulr1.
case: (eqVneq (H l.+1 l) 0) => [h0|]; last by rewrite expr1n mulr1.
have el : l.+1 = k.
  by case: (ltnP l.+1 k) => h; [move: (nH l h); rewrite h0 eqxx|clear -h hl; lia].
rewrite /rho /= sub0r big_nat big1 ?oppr0 ?expr0n ?mul0r // => j /andP[_ hj].
have [ej|ej] := eqVneq j l; first by rewrite ej h0 mul0r.
by rewrite H_zero ?mul0r //; lia.
Qed.

(* Krylov vectors are combinations of the basis *)
Lemma krylov_span i : all_exact -> (i < k)%N -> exists c : nat -> R,
  eqf (iter i op (fun j => b j - op x0 j)) (fun j => \sum_(0 <= l < i.+1) c l * nu l j).
Proof.
move=> ex; elim: i => [|i IH] hi.
  exists (fun=> beta) => j hj /=; by rewrite exact_ini // big_nat1.
have [c hc] := IH (ltnW hi).
exists (fun p => \sum_(0 <= l < i.+1) c l * H p l) => j hj /=.
rewrite (opl.1 _ _ hc _ hj) (lin_sum _ _ _ opL hj).
rewrite (eq_big_nat _ _ (F2 := fun l => \sum_(0 <= p < i.+2) c l * H p l * nu p j)); last first.
  move=> l /andP[_ hl]; rewrite exact_rel //; last by lia.
  rewrite big_distrr /= (big_cat_nat _ (n := i.+2)) //=; last by lia.
  rewrite [X in _ + X]big_nat [X in _ + X]big1 ?addr0; last by move=> p /andP[h1 h2]; rewrite H_zero ?mul0r ?mulr0 //; lia.
  by apply: eq_bigr => p _; rewrite mulrA.
by rewrite exchange_big_nat /=; apply: eq_bigr => p _; rewrite big_distrl.
Qed.

Lemma krylov_combine (z : nat -> R) m : all_exact -> (m <= k)%N -> exists c,
  eqf (combine x0 m z (fun i => iter i op (fun j => b j - op x0 j))) (combine x0 k c nu).
Proof.
move=> ex; elim: m => [|m IH] hm.
  exists (fun=> 0) => i hi; rewrite /combine big_geq // big1 // => j _; by rewrite mul0r.
have [c hc] := IH (ltnW hm); have [d hd] := krylov_span ex hm.
exists (fun l => c l + (if (l < m.+1)%N then z m * d l else 0)) => i hi.
move: (hc i hi); rewrite /combine big_nat_recr //= addrA => ->; rewrite -addrA; congr (_ + _).
transitivity (\sum_(0 <= l < k) (c l * nu l i + (if (l < m.+1)%N then z m * d l else 0) * nu l i)); last first.
  by apply: eq_bigr => l _; rewrite -mulrDl.
rewrite big_split /=; congr (_ + _); rewrite hd //.
rewrite [RHS](big_cat_nat _ (n := m.+1)) //= [X in _ + X]big_nat [X in _ + X]big1 ?addr0; last first.
  by move=> l /andP[h1 h2]; rewrite ltnNge h1 mul0r.
rewrite big_distrr; apply: eq_big_nat => l /andP[_ hl]; by rewrite /= hl mulrA.
Qed.

Lemma exact_optimal y r z : all_exact -> no_breakdown -> is_lsq H beta k y r ->
  nrm (fun i => b i - op (combine x0 k y nu) i) <= nrm (fun i => b i - op (combine x0 k z (fun i => iter i op (fun j => b j - op x0 j))) i).
Proof.
move=> ex nb [er mn]; have [c hc] := krylov_combine z ex (leqnn k).
rewrite [X in _ <= X](@eqf_norm _ (fun i => b i - op (combine x0 k c nu) i)); last by move=> i hi; rewrite (opl.1 _ _ hc).
rewrite !exact_residual // ler_wsqrtr // -er; exact: mn.
Qed.
End Arn.

(* the least residual does not increase with the number of columns *)
Lemma lsq_mono (R : rcfType) (H : nat -> nat -> R) beta k y r y' r' : is_lsq H beta k y r -> is_lsq H beta k.+1 y' r' ->
  (forall q, (q < k)%N -> H k.+1 q = 0) -> 0 <= r' <= r.
Proof.
move=> [er _] [er' mn'] h0; apply/andP; split; first by rewrite er'; apply: sumr_ge0 => p _; exact: sqr_ge0.
apply: le_trans (mn' (fun q => if (q < k)%N then y q else 0)) _; rewrite er /small_sq.
rewrite big_nat_recr //= subr0.
have e p : \sum_(0 <= q < k.+1) H p q * (if (q < k)%N then y q else 0) = \sum_(0 <= q < k) H p q * y q.
  by rewrite big_nat_recr //= ltnn mulr0 addr0; apply: eq_big_nat => q /andP[_ ->].
rewrite e [X in _ + X ^+ 2]big_nat [X in _ + X ^+ 2]big1 ?expr0n ?addr0; last by move=> q /andP[_ hq]; rewrite h0 ?mul0r.
by rewrite le_eqVlt; apply/orP; left; apply/eqP; apply: eq_bigr => p _; rewrite e.
Qed.
Lemma lsq0 (R : rcfType) (H : nat -> nat -> R) beta y r : is_lsq H beta 0 y r -> r = beta ^+ 2.
Proof. by case=> ->; rewrite /small_sq big_nat1 big_geq // eqxx sub0r sqrrN. Qed.

Lemma lsq_ext (R : rcfType) (H H' : nat -> nat -> R) beta k y y' r : is_lsq H beta k y r ->
  (forall p q, (p <= k)%N -> (q < k)%N -> H' p q = H p q) -> (forall q, (q < k)%N -> y' q = y q) -> is_lsq H' beta k y' r.
Proof.
move=> [er mn] hH hy.
have e z z' : (forall q, (q < k)%N -> z' q = z q) -> small_sq H' beta k z' = small_sq H beta k z.
  move=> hz; apply: eq_big_nat => p /andP[_ hp]; congr ((_ - _) ^+ 2); apply: eq_big_nat => q /andP[_ hq].
  by rewrite hH // hz.
by split=> [|z]; [rewrite (e y) | rewrite (e z z)].
Qed.

(* one more step *)
Lemma arn_ext (R : rcfType) (s : seq nat) (op : (seq nat -> R) -> seq nat -> R) sym b x0 k inp out beta nu H inp' out' nu' H' :
  arnoldi s op sym b x0 k inp out beta nu H ->
  (forall l, (l <= 2 * k)%N -> inp' l = inp l) -> (forall l, (l <= 2 * k)%N -> out' l = out l) ->
  (forall l, (l <= k)%N -> nu' l = nu l) -> (forall p q, (p <= k)%N -> (q < k)%N -> H' p q = H p q) ->
  (forall q, (q < k)%N -> H' k.+1 q = 0) ->
  eqf s (inp' (2 * k + 1)%N) (op (nu' k)) ->
  (forall p, (p <= k.+1)%N -> H' p k = if p \in window sym k then ipr s (out' (2 * k + 1)%N) (nu' p)
            else if p == k.+1 then norm2 s (out' (2 * k + 2)%N) else 0) ->
  eqf s (inp' (2 * k + 2)%N) (fun i => out' (2 * k + 1)%N i - \sum_(p <- window sym k) H' p k * nu' p i) ->
  eqf s (nu' k.+1) (fun i => out' (2 * k + 2)%N i / H' k.+1 k) ->
  arnoldi s op sym b x0 k.+1 inp' out' beta nu' H'.
Proof.
move=> a hi ho hn hH hH0 h1 h2 h3 h4.
have hw j p : (j < k)%N -> p \in window sym j -> (p < k)%N by move=> hj /window_le; clear -hj; lia.
split.
- by rewrite hi //; exact: arn_inp0 a.
- by rewrite ho //; exact: arn_beta a.
- by rewrite hn // ho //; exact: arn_nu0 a.
- move=> j; rewrite ltnS leq_eqVlt => /orP[/eqP ->//|hj].
  by rewrite hi ?hn //; [exact: arn_inp1 a _ hj|lia|lia].
- move=> p j; rewrite ltnS leq_eqVlt => /orP[/eqP -> hp|hj hp]; first exact: h2.
  move: hp; rewrite leq_eqVlt => /orP[/eqP ->|hp].
    rewrite hH0 // ifF; last by apply/negP => /(hw _ _ hj); clear; lia.
    by rewrite ifF //; clear -hj; lia.
  rewrite hH // (arn_H a) //; case: ifP => [hpw|_]; first by rewrite ho ?hn //; have := hw _ _ hj hpw; clear -hj; lia.
  by rewrite ho //; clear -hj; lia.
- move=> j; rewrite ltnS leq_eqVlt => /orP[/eqP ->//|hj] i hi'.
  rewrite hi; last by clear -hj; lia.
  rewrite (arn_inp2 a hj hi') ho; last by clear -hj; lia.
  congr (_ - _); rewrite big_seq [RHS]big_seq; apply: eq_bigr => p hp; have := hw _ _ hj hp => hpk.
  by rewrite hH ?hn //; apply: ltnW.
- move=> j; rewrite ltnS leq_eqVlt => /orP[/eqP ->//|hj] i hi'.
  rewrite hn // ho; last by clear -hj; lia.
  by rewrite hH ?(arn_nu a hj hi') //; apply: leq_trans hj _.
Qed.

Lemma arn_same (R : rcfType) (s : seq nat) (op : (seq nat -> R) -> seq nat -> R) sym b x0 k inp out beta nu H inp' out' nu' H' :
  arnoldi s op sym b x0 k inp out beta nu H ->
  (forall l, (l <= 2 * k)%N -> inp' l = inp l) -> (forall l, (l <= 2 * k)%N -> out' l = out l) ->
  (forall l, (l < k)%N -> nu' l = nu l) -> eqf s (nu' k) (nu k) -> (forall p q, (p <= k)%N -> (q < k)%N -> H' p q = H p q) ->
  arnoldi s op sym b x0 k inp' out' beta nu' H'.
Proof.
move=> a hi ho hn hk hH.
have hw j p : (j < k)%N -> p \in window sym j -> (p < k)%N by move=> hj /window_le; clear -hj; lia.
split.
- by rewrite hi //; exact: arn_inp0 a.
- by rewrite ho //; exact: arn_beta a.
- move=> i hi'; rewrite ho // -(arn_nu0 a hi'); case: (posnP k) => [k0|k0]; last by rewrite hn.
  by move: (hk i hi'); rewrite k0.
- by move=> j hj; rewrite hi ?hn //; [exact: arn_inp1 a _ hj|lia].
- move=> p j hj hp; rewrite hH // (arn_H a) //; case: ifP => [/(hw _ _ hj) hpw|_]; first by rewrite ho ?hn //; clear -hj; lia.
  by rewrite ho //; clear -hj; lia.
- move=> j hj i hi'; rewrite hi; last by clear -hj; lia.
  rewrite (arn_inp2 a hj hi') ho; last by clear -hj; lia.
  congr (_ - _); rewrite big_seq [RHS]big_seq; apply: eq_bigr => p hp; have := hw _ _ hj hp => hpk.
  by rewrite hH ?hn //; apply: ltnW.
- move=> j hj i hi'; rewrite ho; last by clear -hj; lia.
  rewrite hH // -(arn_nu a hj hi'); move: hj; rewrite leq_eqVlt => /orP[/eqP ej|hj]; last by rewrite hn.
  by rewrite ej; apply: hk.
Qed.

Lemma linear_onP (R : rcfType) s (op : (seq nat -> R) -> seq nat -> R) : linear_on s s op -> linear_op s op.
Proof. by case=> h1 h2; split=> [x y h i hi|c x y i hi]; [apply: h1 | apply: h2]. Qed.
