(* Linear algebra of the Arnoldi process on functions over multi-indices. *)
From Coq Require Import String Ascii NArith.
From mathcomp Require Import all_ssreflect all_algebra.
From mathcomp Require Import zify.
From Verif Require Import Py Nd Tensor Spec LinSpec RecSpec SkSpec MpoSpec Mpo Gmres GmresSpec ArnSpec NdThy ChainThy NormThy RoundThy2 GmresThy1.
Set Implicit Arguments. Unset Strict Implicit. Unset Printing Implicit Defensive.
Import GRing.Theory Num.Theory Order.POrderTheory.
Local Open Scope ring_scope.

Section Math.
Variable R : rcfType.
Variable s : seq nat.
Notation fn := (seq nat -> R).
Implicit Types (x y z : fn).
Local Notation ip := (@ipr R s).
Local Notation nrm := (@norm2 R s).

Lemma ip_ext x x' y y' : (forall i, inb s i -> x i = x' i) -> (forall i, inb s i -> y i = y' i) -> ip x y = ip x' y'.
Proof. by move=> h h'; apply: eq_sum_idx => i hi; rewrite h // h'. Qed.
Lemma ip_sym x y : ip x y = ip y x.
Proof. by apply: eq_sum_idx => i _; rewrite mulrC. Qed.
Lemma ip_lin c x y z : ip (fun i => c * x i + y i) z = c * ip x z + ip y z.
Proof. by rewrite /ipr -sum_idxZ -sum_idxD; apply: eq_sum_idx => i _; rewrite mulrDl mulrA. Qed.
Lemma ip_ge0 x : 0 <= ip x x.
Proof. by apply: sum_idx_ge0 => i; rewrite -expr2 sqr_ge0. Qed.
Lemma ip_sum n (c : nat -> R) (f : nat -> fn) z : ip (fun i => \sum_(0 <= l < n) c l * f l i) z = \sum_(0 <= l < n) c l * ip (f l) z.
Proof.
elim: n => [|n IH]; first by rewrite !big_geq // -[RHS](@sum_idx0 R s); apply: eq_sum_idx => i _; rewrite big_geq // mul0r.
rewrite [RHS]big_nat_recr //= -IH addrC -ip_lin; apply: ip_ext => // i _; by rewrite big_nat_recr //= addrC.
Qed.
Lemma nrm_ge0 x : 0 <= nrm x. Proof. exact: sqrtr_ge0. Qed.
Lemma nrm_sq x : nrm x ^+ 2 = ip x x. Proof. by rewrite sqr_sqrtr ?ip_ge0. Qed.
Lemma nrm_ext x y : (forall i, inb s i -> x i = y i) -> nrm x = nrm y.
Proof. by move=> h; rewrite /norm2 (ip_ext h h). Qed.
Lemma nrmZ c x : nrm (fun i => c * x i) = `|c| * nrm x.
Proof.
rewrite /norm2; have -> : ip (fun i => c * x i) (fun i => c * x i) = c ^+ 2 * ip x x.
  by rewrite /ipr -sum_idxZ; apply: eq_sum_idx => i _; rewrite expr2 mulrACA.
by rewrite sqrtrM ?sqr_ge0 // sqrtr_sqr.
Qed.
Lemma nrm0 : nrm (fun _ => 0) = 0.
Proof.
rewrite (_ : nrm _ = nrm (fun i => 0 * (fun _ => 0) i)); last by apply: nrm_ext => i _; rewrite mul0r.
by rewrite nrmZ normr0 mul0r.
Qed.
Lemma nrm_eq0 x : nrm x = 0 -> forall i, inb s i -> x i = 0.
Proof.
move=> h; have h0 : ip x x = 0 by rewrite -nrm_sq h expr2 mul0r.
have ge i : 0 <= x i * x i by rewrite -expr2 sqr_ge0.
move=> i hi; have /eqP := sum_idx_eq0 ge h0 hi.
by rewrite mulf_eq0 orbb => /eqP.
Qed.

Lemma ipD x y : ip (fun i => x i + y i) (fun i => x i + y i) = ip x x + ip y y + 2%:R * ip x y.
Proof.
have -> : ip (fun i => x i + y i) (fun i => x i + y i) = ip x (fun i => x i + y i) + ip y (fun i => x i + y i).
  rewrite /ipr -sum_idxD; apply: eq_sum_idx => i _; by rewrite mulrDl.
rewrite ![ip _ (fun i => x i + y i)]ip_sym.
have e z : ip (fun i => x i + y i) z = ip x z + ip y z.
  by rewrite /ipr -sum_idxD; apply: eq_sum_idx => i _; rewrite mulrDl.
by rewrite !e [ip y x]ip_sym mulr_natl mulr2n addrACA [X in _ + X = _]addrC -!addrA; congr (_ + _); rewrite addrCA.
Qed.

Lemma cauchy x y : `|ip x y| <= nrm x * nrm y.
Proof.
case: (eqVneq (ip y y) 0) => [y0|y0].
  have ny : nrm y = 0 by rewrite /norm2 y0 sqrtr0.
  have -> : ip x y = 0.
    rewrite -[RHS](@sum_idx0 R s); apply: eq_sum_idx => i hi; by rewrite (nrm_eq0 ny hi) mulr0.
  by rewrite normr0 ny mulr0.
rewrite -(ler_pexpn2r (n := 2)) ?nnegrE ?mulr_ge0 ?nrm_ge0 // exprMn !nrm_sq real_normK ?num_real //.
have yp : 0 < ip y y by rewrite lt_def y0 ip_ge0.
have := ip_ge0 (fun i => - (ip x y / ip y y) * y i + x i).
rewrite (_ : ip _ _ = ip x x - ip x y ^+ 2 / ip y y) ?subr_ge0 ?ler_pdivr_mulr //.
rewrite ip_lin ![ip _ (fun i => _ + _)]ip_sym !ip_lin ![ip y x]ip_sym.
set a := ip x y; set b := ip y y; set c := ip x x.
have -> : - (a / b) * b = - a by rewrite mulNr divfK.
by rewrite addNr mulr0 add0r mulNr addrC expr2 mulrAC.
Qed.

Lemma triangle x y : nrm (fun i => x i + y i) <= nrm x + nrm y.
Proof.
rewrite -(ler_pexpn2r (n := 2)) ?nnegrE ?addr_ge0 ?nrm_ge0 // sqrrD !nrm_sq ipD.
rewrite -!addrA ler_add2l mulr_natl mulr2n [X in _ <= X]addrA [X in _ <= X]addrC ler_add2l.
by have h := le_trans (ler_norm _) (cauchy x y); apply: ler_add.
Qed.

Lemma nrm_sum n (c : nat -> R) (f : nat -> fn) : nrm (fun i => \sum_(0 <= l < n) c l * f l i) <= \sum_(0 <= l < n) `|c l| * nrm (f l).
Proof.
elim: n => [|n IH]; first by rewrite big_geq // (@nrm_ext _ (fun _ => 0)) ?nrm0 // => i _; rewrite big_geq.
rewrite [X in _ <= X]big_nat_recr //=.
rewrite (@nrm_ext _ (fun i => \sum_(0 <= l < n) c l * f l i + c n * f n i)); last by move=> i _; rewrite big_nat_recr.
by apply: le_trans (triangle _ _) _; rewrite nrmZ ler_add2r.
Qed.

End Math.

Section Math2.
Variable R : rcfType.
Notation fn := (seq nat -> R).

Lemma l1_l2 n (c : nat -> R) : \sum_(0 <= l < n) `|c l| <= Num.sqrt n%:R * Num.sqrt (\sum_(0 <= l < n) c l ^+ 2).
Proof.
have := @cauchy R [:: n] (fun _ => 1) (fun i => `|c (nth 0%N i 0)|).
rewrite /norm2 /ipr !sum_idx1 /=.
have -> : \sum_(0 <= k < n) 1 * `|c k| = \sum_(0 <= l < n) `|c l| by apply: eq_bigr => l _; rewrite mul1r.
have -> : \sum_(0 <= k < n) `|c k| * `|c k| = \sum_(0 <= l < n) c l ^+ 2.
  by apply: eq_bigr => l _; rewrite -expr2 real_normK ?num_real.
have -> : \sum_(0 <= k < n) (1 * 1 : R) = n%:R by rewrite mulr1 sumr_const_nat subn0.
by rewrite ger0_norm // sumr_ge0.
Qed.

(* a solution of the normal equations minimizes the residual, with Pythagoras *)
Lemma lsq_pyth m n (H : nat -> nat -> R) (b y z : nat -> R) :
  let r w p := \sum_(0 <= q < n) H p q * w q - b p in
  (forall q, (q < n)%N -> \sum_(0 <= p < m) H p q * r y p = 0) ->
  \sum_(0 <= p < m) r z p ^+ 2 = \sum_(0 <= p < m) r y p ^+ 2 + \sum_(0 <= p < m) (\sum_(0 <= q < n) H p q * (z q - y q)) ^+ 2.
Proof.
move=> r ne; pose v p := \sum_(0 <= q < n) H p q * (z q - y q).
have e p : r z p = r y p + v p.
  rewrite /r /v addrAC -big_split /=; congr (_ - _); apply: eq_bigr => q _.
  by rewrite -mulrDr addrC subrK.
have o : \sum_(0 <= p < m) r y p * v p = 0.
  transitivity (\sum_(0 <= q < n) (z q - y q) * \sum_(0 <= p < m) H p q * r y p).
    rewrite (eq_bigr (fun p => \sum_(0 <= q < n) (z q - y q) * (H p q * r y p))); last first.
      by move=> p _; rewrite big_distrr; apply: eq_bigr => q _; rewrite /= mulrC -mulrA mulrCA.
    by rewrite exchange_big_nat /=; apply: eq_bigr => q _; rewrite big_distrr.
  by rewrite big_nat big1 // => q /andP[_ hq]; rewrite ne // mulr0.
transitivity (\sum_(0 <= p < m) (r y p ^+ 2 + v p ^+ 2 + (r y p * v p + r y p * v p))).
  by apply: eq_bigr => p _; rewrite e sqrrD mulr2n addrAC.
by rewrite !big_split /= o !addr0.
Qed.
Lemma lsq_min m n (H : nat -> nat -> R) (b y z : nat -> R) :
  let r w p := \sum_(0 <= q < n) H p q * w q - b p in
  (forall q, (q < n)%N -> \sum_(0 <= p < m) H p q * r y p = 0) ->
  \sum_(0 <= p < m) r y p ^+ 2 <= \sum_(0 <= p < m) r z p ^+ 2.
Proof.
move=> r ne; rewrite (lsq_pyth z ne) ler_addl; apply: sumr_ge0 => p _; exact: sqr_ge0.
Qed.

(* ---- Arnoldi ---- *)
Variables (s : seq nat) (op : fn -> fn).
Hypothesis opl : linear_on s s op.
Local Notation ip := (@ipr R s).
Local Notation nrm := (@norm2 R s).

Variables (k : nat) (nu : nat -> fn) (H : nat -> nat -> R) (e : nat -> fn) (beta : R) (b x0 e0 : fn).
Hypothesis arn : forall j i, (j < k)%N -> inb s i -> op (nu j) i = \sum_(0 <= l < k.+1) H l j * nu l i + e j i.
Hypothesis ini : forall i, inb s i -> b i - op x0 i = beta * nu 0%N i + e0 i.

(* the residual of x0 + sum_j y_j nu_j *)
Lemma residual_id (y : nat -> R) i : inb s i ->
  b i - op (fun i => x0 i + \sum_(0 <= j < k) y j * nu j i) i =
  (e0 i - \sum_(0 <= j < k) y j * e j i) +
  \sum_(0 <= l < k.+1) ((if l == 0%N then beta else 0) - \sum_(0 <= j < k) H l j * y j) * nu l i.
Proof.
move=> hi; have [ext lin] := opl.
have -> : op (fun i => x0 i + \sum_(0 <= j < k) y j * nu j i) i = op x0 i + \sum_(0 <= j < k) y j * op (nu j) i.
  rewrite -(lin_sum _ _ _ opl hi) (ext _ (fun i => 1 * x0 i + \sum_(j <- index_iota 0 k) y j * nu j i)) ?lin ?mul1r //.
  by move=> i' _; rewrite mul1r.
rewrite opprD addrA ini //.
have -> : \sum_(0 <= j < k) y j * op (nu j) i =
   \sum_(0 <= l < k.+1) (\sum_(0 <= j < k) H l j * y j) * nu l i + \sum_(0 <= j < k) y j * e j i.
  transitivity (\sum_(0 <= j < k) (y j * (\sum_(0 <= l < k.+1) H l j * nu l i) + y j * e j i)).
    by apply: eq_big_nat => j /andP[_ hj]; rewrite arn // mulrDr.
  rewrite big_split /=; congr (_ + _).
  rewrite (eq_bigr (fun j => \sum_(0 <= l < k.+1) H l j * y j * nu l i)); last first.
    by move=> j _; rewrite big_distrr; apply: eq_bigr => l _; rewrite /= mulrA [y j * _]mulrC.
  by rewrite exchange_big_nat /=; apply: eq_bigr => l _; rewrite big_distrl.
have -> : \sum_(0 <= l < k.+1) ((if l == 0%N then beta else 0) - \sum_(0 <= j < k) H l j * y j) * nu l i =
   beta * nu 0%N i - \sum_(0 <= l < k.+1) (\sum_(0 <= j < k) H l j * y j) * nu l i.
  under eq_bigr do rewrite mulrBl; rewrite sumrB; congr (_ - _).
  by rewrite big_nat_recl //= big1 ?addr0 // => l _; rewrite mul0r.
by move: (\sum_(0 <= l < k.+1) _) (\sum_(0 <= j < k) _) (beta * _) (e0 i) => S1 S2 x y0; rewrite opprD addrACA addrC.
Qed.

Hypothesis unit : forall l, (l <= k)%N -> nrm (nu l) <= 1.

(* inexact arithmetic: the true residual is bounded by the small one and the errors *)
Lemma residual_bound (y : nat -> R) :
  nrm (fun i => b i - op (fun i => x0 i + \sum_(0 <= j < k) y j * nu j i) i) <=
  Num.sqrt k.+1%:R * Num.sqrt (\sum_(0 <= l < k.+1) (\sum_(0 <= j < k) H l j * y j - (if l == 0%N then beta else 0)) ^+ 2)
  + nrm e0 + \sum_(0 <= j < k) `|y j| * nrm (e j).
Proof.
pose rho l := (if l == 0%N then beta else 0) - \sum_(0 <= j < k) H l j * y j.
rewrite (@nrm_ext _ _ _ (fun i => (e0 i + \sum_(0 <= j < k) (- y j) * e j i) + \sum_(0 <= l < k.+1) rho l * nu l i)); last first.
  move=> i hi; rewrite residual_id //; congr (_ + _ + _); rewrite -sumrN; by apply: eq_bigr => j _; rewrite mulNr.
apply: le_trans (triangle _ _ _) _; rewrite addrC -addrA; apply: ler_add.
  apply: le_trans (nrm_sum _ _ _ _) _.
  apply: (@le_trans _ _ (\sum_(0 <= l < k.+1) `|rho l|)).
    rewrite big_nat [X in _ <= X]big_nat; apply: ler_sum => l /andP[_ hl].
    by rewrite -[X in _ <= X]mulr1; apply: ler_pmul => //; rewrite ?normr_ge0 ?nrm_ge0 // unit.
  apply: le_trans (l1_l2 _ _) _; apply: ler_wpmul2l; first exact: sqrtr_ge0.
  by rewrite (eq_bigr (fun l => (\sum_(0 <= j < k) H l j * y j - (if l == 0%N then beta else 0)) ^+ 2)) // => l _; rewrite -sqrrN opprB.
apply: le_trans (triangle _ _ _) _; rewrite ler_add2l.
apply: le_trans (nrm_sum _ _ _ _) _; rewrite le_eqVlt; apply/orP; left; apply/eqP.
by apply: eq_bigr => j _; rewrite normrN.
Qed.
End Math2.
