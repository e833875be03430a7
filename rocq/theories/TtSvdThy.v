(* The left-to-right sweep of tt_svd (tt_svd.py:10-49): shapes, ranks, orthonormality, error and
   quasi-optimality *)
From Coq Require Import String Ascii NArith.
From mathcomp Require Import all_ssreflect all_algebra.
From mathcomp Require Import zify.
From Verif Require Import Py Nd NdThy Ein Utils Tensor Spec LinSpec ChainThy MatThy TensorThy TensorThy2.
From Verif Require Import TensorThy4 GatherThy DotThy TrimThy TensorNum SweepThy NormThy RoundSpec RoundThy EYThy RoundOpt.
Set Implicit Arguments. Unset Strict Implicit. Unset Printing Implicit Defensive.
Import GRing.Theory Num.Theory Order.TTheory.
Local Open Scope ring_scope.

Section TtSvd.
Variable R : rcfType.
Notation arr := (nd R).
Implicit Types (C M T : arr) (cs : seq arr).
Variable svd_red : arr -> res (arr * arr * arr).
Hypothesis svdP : svd_red_contract svd_red.
Variables (shape rank : seq nat).
Notation d := (size shape).

(* the rest of the sweep, from the compressed tensor T on *)
Definition tailf (mus : seq nat) (prev : nat) T : res (seq arr * seq (seq R)) :=
  do rec <- tt_svd_loop_g svd_red shape rank mus prev T;
  do lst <- reshape rec.1.2 [:: rec.1.1.2; nth 0%N shape d.-1; 1%N];
  Ok (rec.1.1.1 ++ [:: lst], rec.2).
Definition bodyf (mu : nat) (mus : seq nat) (prev : nat) M : res (seq arr * seq (seq R)) :=
  do usv <- svd_red M;
  let: (U, Sv, V) := usv in
  do rk <- pyget rank mu;
  let r := maxn (minn (dim U 1) rk) 1 in
  do core <- reshape (slice_ax 1 0 r U) [:: prev; nth 0%N shape mu; r];
  do T1 <- diag_mul r Sv V;
  do T2 <- reshape T1 (r :: drop mu.+1 shape);
  do rec <- tailf mus r T2;
  Ok (core :: rec.1, drop r (ndata Sv) :: rec.2).

Lemma tail_cons mu mus prev T :
  tailf (mu :: mus) prev T = (do M <- matricize T [:: 0; 1]%N true; bodyf mu mus prev M).
Proof.
rewrite /tailf /bodyf /=; case: (matricize _ _ _) => [M|] //=; case: (svd_red M) => [[[U Sv] V]|] //=.
case: (pyget _ _) => [rk|] //=; case: (reshape (slice_ax _ _ _ _) _) => [core|] //=; case: (diag_mul _ _ _) => [T1|] //=.
case: (reshape T1 _) => [T2|] //=; rewrite /tailf; case: (tt_svd_loop_g _ _ _ _ _ _) => [[[[cs p] T'] l]|] //=.
by case: (reshape T' _).
Qed.

(* what the sweep returns for a "tensor" X a i with a < p and i in the box s *)
Definition sweep_post (mu p : nat) (s : seq nat) (X : nat -> seq nat -> R) (res : seq arr * seq (seq R)) : Prop :=
  [/\ links p res.1 1 /\ modes res.1 = s, all_but_last (fun C => left_orth C) res.1 /\ pos_tt res.1,
      (forall k, (k < (size s).-1)%N -> (dim (nth (Nd [::] [::]) res.1 k) 2 <= maxn 1 (nth 0%N rank (mu + k)))%N)
       /\ size res.2 = (size s).-1,
      \sum_(0 <= a < p) sum_idx s (fun i => (X a i - chain res.1 i a 0) ^+ 2) = sum_sq res.2
      /\ \sum_(0 <= a < p) sum_idx s (fun i => X a i ^+ 2)
         = \sum_(0 <= a < p) sum_idx s (fun i => chain res.1 i a 0 ^+ 2) + sum_sq res.2 &
      forall k (y : nat -> seq nat -> R) rB (f : nat -> seq nat -> nat -> R) (g : nat -> seq nat -> R),
       (k < (size s).-1)%N -> (rB <= maxn 1 (nth 0%N rank (mu + k)))%N ->
       (forall a i j, (a < p)%N -> inb (take k.+1 s) i -> inb (drop k.+1 s) j ->
          y a (i ++ j) = \sum_(0 <= c < rB) f a i c * g c j) ->
       \sum_(v <- nth [::] res.2 k) v ^+ 2 <= \sum_(0 <= a < p) sum_idx s (fun i => (X a i - y a i) ^+ 2)].

Lemma sum_unravel s (F : seq nat -> R) : sum_idx s F = \sum_(0 <= q < prods s) F (unravel s q).
Proof. by rewrite sum_idxE /all_idx big_map. Qed.

Lemma exch_nat m n (F : nat -> nat -> R) :
  \sum_(0 <= i < m) \sum_(0 <= j < n) F i j = \sum_(0 <= j < n) \sum_(0 <= i < m) F i j.
Proof. exact: exchange_big. Qed.

(* flattening the sum over (a, k :: j) into rows (a * n + k) and columns *)
Lemma flat_sum p n s (F : nat -> seq nat -> R) (G : nat -> nat -> R) :
  (forall a k q, (a < p)%N -> (k < n)%N -> (q < prods s)%N -> F a (k :: unravel s q) = G (a * n + k)%N q) ->
  \sum_(0 <= a < p) sum_idx (n :: s) (F a) = \sum_(0 <= l < p * n) \sum_(0 <= q < prods s) G l q.
Proof.
move=> e; rewrite sum_nat_mul; apply: eq_big_nat => a /andP[_ ha] /=.
apply: eq_big_nat => k /andP[_ hk]; rewrite sum_unravel; apply: eq_big_nat => q /andP[_ hq]; exact: e.
Qed.

(* the last core *)
Lemma tail_last p n T : nwf T -> nshape T = [:: p; n] -> nth 0%N shape d.-1 = n -> (0 < n)%N ->
  forall mu, or_linalg (tailf [::] p T) (sweep_post mu p [:: n] (fun a i => get T (a :: i))).
Proof.
move=> wT sT en np mu; rewrite /tailf /= en.
have P : prods [:: p; n; 1%N] = prods (nshape T) by rewrite sT /= !muln1.
have [C -> [wC sC gC]] := reshape_spec wT P; have [d0 d1 d2] := dim3 sC.
have E a k : (a < p)%N -> (k < n)%N -> chain [:: C] [:: k] a 0 = get T [:: a; k].
  move=> ha hk; rewrite /= d2 big_nat1 eqxx mulr1; apply: gC; by rewrite sT /= !muln1 !addn0.
have Z : sum_sq ([::] : seq (seq R)) = 0 by rewrite /sum_sq big_nil.
split=> //=.
- by rewrite wC {1}sC d1 d2 !eqxx.
- split; [by case|by rewrite d1 d2 np].
- rewrite Z addr0; split.
    rewrite big_nat big1 // => a /andP[_ ha]; rewrite big_nat big1 // => k /andP[_ hk].
    have /= -> := E a k ha hk; by rewrite subrr expr0n.
  apply: eq_big_nat => a /andP[_ ha]; apply: eq_big_nat => k /andP[_ hk].
  by have /= -> := E a k ha hk.
Qed.

Lemma abl_cons (P : arr -> Prop) C cs : P C -> all_but_last P cs -> all_but_last P (C :: cs).
Proof. by move=> pC h [|k] //= hk; apply: h. Qed.
Definition split_idx (n l : nat) := ((l %/ n)%N, (l %% n)%N).

(* one step *)
Lemma bodyP mu mus p n s X M :
  (forall r T, (0 < r)%N -> nwf T -> nshape T = r :: s ->
     or_linalg (tailf mus r T) (sweep_post mu.+1 r s (fun a i => get T (a :: i)))) ->
  is_mat M (p * n) (prods s) -> (0 < p)%N -> (0 < n)%N -> all (fun n => 0 < n)%N s -> (0 < size s)%N ->
  (forall a k j, (a < p)%N -> (k < n)%N -> inb s j -> get M [:: (a * n + k)%N; ravel s j] = X a (k :: j)) ->
  nth 0%N shape mu = n -> drop mu.+1 shape = s -> (mu < size rank)%N ->
  or_linalg (bodyf mu mus p M) (sweep_post mu p (n :: s) X).
Proof.
move=> IH mM pp np ps s0 gM en es hmu; rewrite /bodyf en es.
apply: (or_bind (svdP mM)) => -[[U Sv] Vt] [mU mV oU oV vals].
set m := (p * n)%N in mM mU oU vals *; set N := prods s in mM mU mV oU oV vals *.
have mp : (0 < m)%N by rewrite muln_gt0 pp.
have Np : (0 < N)%N by rewrite /N; elim: (s) ps => //= x l I /andP[hx /I h]; rewrite muln_gt0 hx.
have kp : (0 < minn m N)%N by rewrite leq_min mp.
have vS : is_vec Sv (minn m N) by case: vals.
rewrite (pygetE 0%N hmu) [bind (Ok _) _]/=.
have -> : dim U 1 = minn m N by case: mU => _ sU; rewrite /dim sU.
set r := maxn _ 1.
have r_p : (0 < r)%N by rewrite /r leq_maxr.
have rk : (r <= minn m N)%N by rewrite /r geq_max kp andbT geq_minl.
have [mU' gU'] := slice_cols mU rk.
have [C -> [wC sC gC]] := foldL mU'; rewrite [bind (Ok C) _]/=.
have [T1 -> [mT1 gT1]] := sv_us mV vS rk rk; rewrite [bind (Ok T1) _]/=.
have P2 : prods (r :: s) = prods (nshape T1) by case: mT1 => _ ->; rewrite /= muln1.
have [T2 -> [wT2 sT2 gT2]] := reshape_spec mT1.1 P2; rewrite [bind (Ok T2) _]/=.
apply: (or_bind (IH r T2 r_p wT2 sT2)) => -[cs l] [[Lo Mo] [Oo Po] [Bo So] [E1 E2] Q].
rewrite /= in Lo Mo Oo Po Bo So E1 E2 Q.
have [d0 d1 d2] := dim3 sC.
have T2E t q : (t < r)%N -> (q < N)%N -> get T2 (t :: unravel s q) = get Sv [:: t] * get Vt [:: t; q].
  move=> ht hq; rewrite -gT1 //; apply: gT2; case: mT1 => _ ->; rewrite /= ravelK // !muln1 !addn0 //.
have oU' b c' : (b < minn m N)%N -> (c' < minn m N)%N ->
  \sum_(0 <= i < m) get U [:: i; b] * get U [:: i; c'] = (b == c')%:R by exact: oU.
have oV' b c' : (b < minn m N)%N -> (c' < minn m N)%N ->
  \sum_(0 <= i < N) get Vt [:: b; i] * get Vt [:: c'; i] = (b == c')%:R by exact: oV.
have iU := isomU oU' rk.
have gME a k q : (a < p)%N -> (k < n)%N -> (q < N)%N -> X a (k :: unravel s q) = get M [:: (a * n + k)%N; q].
  by move=> ha hk hq; rewrite -gM ?inb_unravel // ravelK.
have MT2 l' q : (l' < m)%N -> (q < N)%N ->
   get M [:: l'; q] = \sum_(0 <= t < r) get U [:: l'; t] * get T2 (t :: unravel s q) + tail U Sv Vt m N r l' q.
  move=> hl hq; rewrite (tailE vals rk hl hq); congr (_ + _); apply: eq_big_nat => t /andP[_ ht].
  by rewrite T2E // mulrA.
(* the projection T2 = U^T M *)
have T2M t q : (t < r)%N -> (q < N)%N -> get T2 (t :: unravel s q) = \sum_(0 <= l' < m) get U [:: l'; t] * get M [:: l'; q].
  move=> ht hq; under eq_big_nat => l' /andP[_ hl'] do rewrite MT2 // mulrDr big_distrr /=.
  rewrite big_split /= (tail0U Sv Vt oU' rk) // addr0 exchange_big /=.
  rewrite -[LHS](sum_nat_delta (fun t' => get T2 (t' :: unravel s q)) ht); apply: eq_big_nat => t' /andP[_ ht'].
  rewrite eq_sym -(iU t t') // big_distrl /=; by apply: eq_bigr => l' _; rewrite mulrA.
have chE a k j : (a < p)%N -> (k < n)%N -> chain (C :: cs) (k :: j) a 0
   = \sum_(0 <= t < r) get U [:: (a * n + k)%N; t] * chain cs j t 0.
  move=> ha hk; rewrite [LHS]/= d2; apply: eq_big_nat => t /andP[_ ht]; congr (_ * _).
  by rewrite gC gU' // flat_lt.
(* Pythagoras, column by column *)
have pyt (x : nat -> R) q :
  \sum_(0 <= l' < m) (\sum_(0 <= t < r) get U [:: l'; t] * x t + tail U Sv Vt m N r l' q) ^+ 2
  = \sum_(0 <= t < r) x t ^+ 2 + \sum_(0 <= l' < m) tail U Sv Vt m N r l' q ^+ 2.
  have z : \sum_(0 <= l' < m) (\sum_(0 <= t < r) get U [:: l'; t] * x t) * tail U Sv Vt m N r l' q = 0.
    under eq_bigr => l' _ do rewrite big_distrl /=.
    rewrite exchange_big /= big_nat big1 // => t /andP[_ ht].
    rewrite -[RHS](mulr0 (x t)) -[in RHS](tail0U Sv Vt oU' rk q ht) big_distrr /=; apply: eq_bigr => l' _.
    by rewrite mulrA [x t * _]mulrC.
  rewrite -(isom_sq x iU); set A := fun l' => \sum_(0 <= t < r) get U [:: l'; t] * x t in z *.
  transitivity (\sum_(0 <= l' < m) (A l' ^+ 2 + tail U Sv Vt m N r l' q ^+ 2 + (A l' * tail U Sv Vt m N r l' q) *+ 2)).
    by apply: eq_bigr => l' _; rewrite -/(A l') sqrrD addrAC.
  by rewrite [LHS]big_split [X in X + _ = _]big_split [X in _ + X = _]sumrMnl z mul0rn addr0.
have tsq := tail_sq oU' oV' vals rk.
have sumT2 (F : nat -> seq nat -> R) :
   \sum_(0 <= t < r) sum_idx s (F t) = \sum_(0 <= q < N) \sum_(0 <= t < r) F t (unravel s q).
  by rewrite exch_nat; apply: eq_bigr => t _; rewrite sum_unravel.
have ssc (v : seq R) vs : sum_sq (v :: vs) = \sum_(x <- v) x ^+ 2 + sum_sq vs by rewrite /sum_sq big_cons.
cbn [or_linalg fst snd]; rewrite /sweep_post; cbn [fst snd]; split.
- by rewrite /= wC {1}sC d1 d2 !eqxx /= Lo Mo.
- split; last by rewrite /= d1 d2 np r_p.
  apply: abl_cons => // b c; rewrite d0 d1 d2 => hb hc.
  rewrite -(iU b c hb hc) [X in _ = X](sum_nat_mul p n).
  apply: eq_big_nat => a /andP[_ ha]; apply: eq_big_nat => k /andP[_ hk].
  by rewrite !gC !gU' // flat_lt.
- split; last by rewrite /= So prednK.
  case=> [|k] /= hk; first by rewrite d2 addn0 /r geq_max leq_max geq_minr orbT leq_max.
  rewrite addnS -addSn; apply: Bo; clear -hk s0; lia.
- rewrite ssc -E1; split.
    rewrite (@flat_sum p n s _ (fun l' q => (\sum_(0 <= t < r) get U [:: l'; t] * (get T2 (t :: unravel s q) - chain cs (unravel s q) t 0) + tail U Sv Vt m N r l' q) ^+ 2)); last first.
      move=> a k q ha hk hq; congr (_ ^+ 2); rewrite gME // (MT2 _ _ (flat_lt ha hk) hq).
      rewrite chE // addrAC; congr (_ + _).
      by rewrite -sumrB; apply: eq_bigr => t _; rewrite mulrBr.
    rewrite exch_nat; under eq_bigr => q _ do rewrite pyt.
    by rewrite big_split /= exch_nat -tsq [\sum_(0 <= l' < m) _]exch_nat [RHS]addrC; congr (_ + _); rewrite sumT2 exch_nat.
  rewrite (@flat_sum p n s _ (fun l' q => (\sum_(0 <= t < r) get U [:: l'; t] * get T2 (t :: unravel s q) + tail U Sv Vt m N r l' q) ^+ 2)); last first.
    by move=> a k q ha hk hq; congr (_ ^+ 2); rewrite gME // (MT2 _ _ (flat_lt ha hk) hq).
  rewrite (@flat_sum p n s _ (fun l' q => (\sum_(0 <= t < r) get U [:: l'; t] * chain cs (unravel s q) t 0) ^+ 2)); last first.
    by move=> a k q ha hk hq; congr (_ ^+ 2); exact: chE.
  rewrite exch_nat; under eq_bigr => q _ do rewrite pyt.
  rewrite big_split /= -(sumT2 (fun t i => get T2 (t :: i) ^+ 2)) E2 -tsq.
  rewrite [X in _ = X + _]exch_nat; under [X in _ = X + _]eq_bigr => q _ do rewrite (isom_sq _ iU).
  rewrite -(sumT2 (fun t i => chain cs i t 0 ^+ 2)) E1 -!addrA; congr (_ + _); rewrite addrC; congr (_ + _).
  exact: exch_nat.
case=> [|k] y rB f g hk hB yE; cbn [nth]; rewrite /= in hk.
- rewrite addn0 in hB.
  case: (leqP (nth 0%N rank mu) (minn m N)) => hr; last first.
    have -> : r = minn m N by rewrite /r; clear -hr kp; lia.
    rewrite drop_oversize ?big_nil; last by case: vS => wS sS; move: wS; rewrite /nwf sS /= muln1 => /eqP ->.
    by apply: sumr_ge0 => a _; apply: (@sum_idx_ge0 R (n :: s)) => i; exact: sqr_ge0.
  have rBr : (rB <= r)%N by apply: leq_trans hB _; rewrite /r; clear -hr; lia.
  apply: le_trans (eckart_young (fun l' c => f (l' %/ n)%N [:: (l' %% n)%N] c) (fun c q => g c (unravel s q)) oU' oV' vals rk rBr) _.
  rewrite le_eqVlt; apply/orP; left; apply/eqP; symmetry; apply: flat_sum => a k q ha hk' hq.
  rewrite gME //; congr ((_ - _) ^+ 2).
  rewrite -[k :: _]/([:: k] ++ _) yE //=; last 2 first.
  - by rewrite take0 /= hk'.
  - by rewrite drop0 inb_unravel.
  by apply: eq_bigr => c _; rewrite divnMDl // divn_small // addn0 modnMDl modn_small.
have hk1 : (k < (size s).-1)%N by clear -hk s0; lia.
pose y' t i := \sum_(0 <= l' < m) get U [:: l'; t] * y (l' %/ n)%N ((l' %% n)%N :: i).
pose f' t i c := \sum_(0 <= l' < m) get U [:: l'; t] * f (l' %/ n)%N ((l' %% n)%N :: i) c.
rewrite addnS -addSn in hB.
apply: le_trans (Q k y' rB f' g hk1 hB _) _.
  move=> t i j ht hi hj; rewrite /y' /f'; under [in RHS]eq_bigr => c _ do rewrite big_distrl /=.
  rewrite [in RHS]exchange_big /=; apply: eq_big_nat => l' /andP[_ hl'].
  have h1 : (l' %/ n < p)%N by rewrite ltn_divLR.
  have h2 : (l' %% n < n)%N by rewrite ltn_pmod.
  rewrite -cat_cons yE //=; last by rewrite h2.
  by rewrite big_distrr /=; apply: eq_bigr => c _; rewrite mulrA.
rewrite sumT2 (@flat_sum p n s _ (fun l' q => (get M [:: l'; q] - y (l' %/ n)%N ((l' %% n)%N :: unravel s q)) ^+ 2)); last first.
  move=> a k' q ha hk' hq; rewrite gME // divnMDl // divn_small // addn0 modnMDl modn_small //.
rewrite [X in _ <= X]exch_nat big_nat [X in _ <= X]big_nat; apply: ler_sum => q /andP[_ hq].
apply: le_trans (bessel (fun l' => get M [:: l'; q] - y (l' %/ n)%N ((l' %% n)%N :: unravel s q)) iU).
rewrite le_eqVlt; apply/orP; left; apply/eqP; apply: eq_big_nat => t /andP[_ ht]; congr (_ ^+ 2).
by rewrite T2M // /y' -sumrB; apply: eq_bigr => l' _; rewrite mulrBr.
Qed.

(* the whole tail of the sweep *)
Lemma tailP j mu s p T : s = drop mu shape -> size s = j.+1 -> (mu + j <= size rank)%N -> (0 < p)%N ->
  all (fun n => 0 < n)%N s -> nwf T -> nshape T = p :: s ->
  or_linalg (tailf (iota mu j) p T) (sweep_post mu p s (fun a i => get T (a :: i))).
Proof.
elim: j mu s p T => [|j IH] mu s p T es sz hr pp ps wT sT.
  case: s es sz ps sT => [|n [|]] //= es _ /andP[np _] sT.
  apply: tail_last => //; have hd : (mu < d)%N by rewrite ltnNge; apply/negP => h; rewrite drop_oversize in es.
  have e1 : (d - mu)%N = 1%N by rewrite -size_drop -es.
  have -> : d.-1 = mu by clear -hd e1; lia.
  by rewrite -[mu]addn0 -nth_drop -es.
case: s es sz ps sT => [|n s] // es [sz] /andP[np ps] sT.
have hd : (mu < d)%N by rewrite ltnNge; apply/negP => h; rewrite drop_oversize in es.
have es' : drop mu.+1 shape = s by move: es; rewrite (drop_nth 0%N hd) => -[].
have en : nth 0%N shape mu = n by move: es; rewrite (drop_nth 0%N hd) => -[].
rewrite [iota _ _]/= tail_cons (_ : [:: 0; 1]%N = iota 0 2) // matricize_lead ?/ndim ?sT //.
rewrite [bind (Ok _) _]/= take0 drop0; set M := Nd _ _.
have P : prods [:: (p * (n * 1))%N; prods s] = prods (nshape T) by rewrite sT /= !muln1 mulnA.
have mM : is_mat M (p * n) (prods s).
  split; last by rewrite /M /= muln1.
  by move: wT; rewrite /nwf /M /= -P.
apply: (bodyP _ mM) => //; last 3 first.
- by rewrite sz.
- move=> a k i ha hk hi; rewrite /get /M sT /= !muln1 addn0; congr (nth _ _ _); by rewrite mulnDl -mulnA !addnA.
- by apply: leq_trans hr; rewrite addnS leq_addr.
move=> r T' r_p wT' sT'; apply: IH => //; by rewrite addSn -addnS.
Qed.
End TtSvd.
