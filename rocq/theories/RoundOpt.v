(* Quasi-optimality of TensorTrain.round (tensor.py:446-484): with eps = 0 the values dropped at
   a bond are at most the distance to every tensor whose rank at this bond is within the bound. *)
From Coq Require Import String Ascii.
From mathcomp Require Import all_ssreflect all_algebra.
From mathcomp Require Import zify.
From Verif Require Import Py Nd NdThy Ein Utils Tensor Spec LinSpec ChainThy TensorThy TensorThy2.
From Verif Require Import TensorThy4 GatherThy DotThy TrimThy TensorNum SweepThy NormThy RoundSpec RoundThy EYThy.
Set Implicit Arguments. Unset Strict Implicit. Unset Printing Implicit Defensive.
Import GRing.Theory Num.Theory Order.TTheory.
Local Open Scope ring_scope.

Lemma bessel (R : rcfType) (T : eqType) (I : seq T) r (L : T -> nat -> R) (u : T -> R) : isom I r L ->
  \sum_(0 <= l < r) (\sum_(i <- I) L i l * u i) ^+ 2 <= \sum_(i <- I) u i ^+ 2.
Proof.
move=> iL; pose a l := \sum_(i <- I) L i l * u i.
have h0 : 0 <= \sum_(i <- I) (u i - \sum_(0 <= l < r) L i l * a l) ^+ 2 by apply: sumr_ge0 => i _; exact: sqr_ge0.
have e1 : \sum_(i <- I) u i * (\sum_(0 <= l < r) L i l * a l) = \sum_(0 <= l < r) a l ^+ 2.
  under eq_bigr => i _ do rewrite big_distrr /=.
  rewrite exchange_big /=; apply: eq_bigr => l _; rewrite expr2 [in X in _ = X * _]/a big_distrl /=; apply: eq_bigr => i _.
  by rewrite mulrA [u i * _]mulrC.
have e2 := isom_sq a iL.
have e3 : \sum_(i <- I) (u i - \sum_(0 <= l < r) L i l * a l) ^+ 2 = \sum_(i <- I) u i ^+ 2 - \sum_(0 <= l < r) a l ^+ 2.
  under eq_bigr => i _ do rewrite sqrrB.
  rewrite big_split /= e2 sumrB sumrMnl e1 mulr2n; set A := bigop _ _ _; set B := bigop _ _ _; by rewrite opprD addrA subrK.
by rewrite e3 subr_ge0 in h0.
Qed.

Section Opt.
Variable R : rcfType.
Notation arr := (nd R).
Implicit Types (C : arr) (ls : seq arr).
Variable svd : arr -> res (arr * arr * arr).
Hypothesis svdP : svd_contract svd.
Variables (mr : seq nat).
Notation round_body := (round_body svd 0 mr).

Definition opt_post C1 ls (r' : nat) (res : seq arr * seq (seq R)) : Prop :=
  size res.2 = size ls /\ forall k (y : seq nat -> nat -> R) rB (f : seq nat -> nat -> R) (g : nat -> seq nat -> nat -> R),
   (k < size ls)%N -> (rB <= maxn 1 (nth 0%N mr k))%N ->
   (forall i j b, inb (take k.+1 (modes (rcons ls C1))) i -> inb (drop k.+1 (modes (rcons ls C1))) j -> (b < r')%N ->
      y (i ++ j) b = \sum_(0 <= c < rB) f i c * g c j b) ->
   \sum_(s <- nth [::] (rev res.2) k) s ^+ 2
   <= sqsum (rcons ls C1) r' (fun i b => chain (rcons ls C1) i 0 b - y i b).

Lemma round_bodyQ ls C1 r0 r' : links 1 ls r0 -> (forall C, C \in ls -> left_orth C) ->
  pos_tt ls -> nwf C1 -> nshape C1 = [:: r0; dim C1 1; r'] -> (0 < dim C1 1)%N -> (0 < r')%N ->
  (size ls <= size mr)%N ->
  or_linalg (round_body C1 ls) (opt_post C1 ls r').
Proof.
elim/last_ind: ls C1 r0 r' => [|ls C IH] C1 r0 r' L O P wC1 sC1 np rp sm; rewrite /RoundThy.round_body /=.
  by split.
have [q [Lq wC sC]] := links_rcons L.
have [C0e C1e C2e] := dim3 sC; have [D0e D1e D2e] := dim3 sC1.
set m := dim C 1 in sC C1e *; set n := dim C1 1 in sC1 np D1e *.
have Pls : pos_tt ls /\ (0 < m)%N && (0 < r0)%N.
  by move: P; rewrite /pos_tt all_rcons /= -/m C2e => /andP[-> ->].
case: Pls => Pls /andP[mp r0p].
have Ols C' : C' \in ls -> left_orth C' by move=> h; apply: O; rewrite mem_rcons in_cons h orbT.
rewrite size_rcons [(0 < _)%N]/= D0e D2e -/n; have [M -> [mM gM]] := unfoldR wC1 sC1.
rewrite [bind _ _]/=; apply: (or_bind (svdP mM)) => -[[U Sv] Vt] [mU mV oU oV vals].
have kp : (0 < minn r0 (n * r'))%N by rewrite leq_min r0p muln_gt0 np rp.
have vS : is_vec Sv (minn r0 (n * r')) by case: vals.
have [c -> [cle ec]] := count_aboveE 0 vS kp; rewrite [bind _ _]/=.
have smr : (size ls < size mr)%N by rewrite size_rcons in sm.
rewrite (pygetE 0%N smr) [bind _ _]/=; set r := maxn 1 _.
have rk : (r <= minn r0 (n * r'))%N.
  by rewrite /r geq_max kp /=; apply: leq_trans cle; apply: geq_minl.
have rr0 : (r <= r0)%N by apply: leq_trans rk _; apply: geq_minl.
have rnr : (r <= n * r')%N by apply: leq_trans rk _; apply: geq_minr.
have r_p : (0 < r)%N by rewrite /r leq_maxl.
have [us -> [mus gus]] := us_mat mU vS rr0 rk; rewrite [bind _ _]/=.
have [mV' gV'] := slice_rows mV rnr.
have [V -> [wV sV gV]] := foldR mV'; rewrite [bind (Ok V) _]/=.
rewrite -[0%N :: _]/(iota 0 (size ls).+1) -(size_rcons ls C) round_loopS (es_ijk_kl sC mus.2) [bind (Ok _) _]/=.
set C2 := tab3 _ _ _ _; have wC2 : nwf C2 := nwf_tab3 _ _ _ _.
have sC2 : nshape C2 = [:: q; m; r] by [].
have [E0e E1e E2e] := dim3 sC2; have [F0e F1e F2e] := dim3 sV.
have sC2' : nshape C2 = [:: q; dim C2 1; r] by rewrite E1e.
have m2p : (0 < dim C2 1)%N by rewrite E1e.
apply: (or_bind (IH C2 q r Lq Ols Pls wC2 sC2' m2p r_p (ltnW smr))) => -[res1 res2].
rewrite /opt_post [X in X -> _]/= => -[So Qo]; rewrite /= So size_rcons; split=> // k y rB f g hk hB yE.
have Mrc : modes (rcons ls C2) = modes (rcons ls C) by rewrite /modes !map_rcons E1e.
have oU' b c' : (b < minn r0 (n * r'))%N -> (c' < minn r0 (n * r'))%N ->
  \sum_(0 <= i < r0) get U [:: i; b] * get U [:: i; c'] = (b == c')%:R.
  by move=> hb hc; apply: oU; [move: hb | move: hc]; rewrite leq_min => /andP[].
have oV' b c' : (b < minn r0 (n * r'))%N -> (c' < minn r0 (n * r'))%N ->
  \sum_(0 <= i < n * r') get Vt [:: b; i] * get Vt [:: c'; i] = (b == c')%:R.
  by move=> hb hc; apply: oV; [move: hb | move: hc]; rewrite leq_min => /andP[].
pose L' i l := chain (rcons ls C) i 0 l.
pose H i t := chain (rcons ls C2) i 0 t.
have iL : isom (all_idx (modes (rcons ls C))) r0 L' by apply: left_isom.
have iV := isomV oV' rk.
have HE i t : inb (modes (rcons ls C)) i -> (t < r)%N -> H i t = \sum_(0 <= l < r0) L' i l * get us [:: l; t].
  by move=> hi ht; rewrite /H /L' /C2 (chain_us us Lq wC sC hi ht).
pose xp i p := \sum_(0 <= l < r0) L' i l * get M [:: l; p].
have xE i k' b : inb (modes (rcons ls C)) i -> (k' < n)%N -> (b < r')%N ->
  chain (rcons (rcons ls C) C1) (rcons i k') 0 b = xp i (k' * r' + b)%N.
  move=> hi hk' hb; have si : size i = size (rcons ls C) by rewrite (inb_size hi) size_map.
  rewrite (chain_rcons _ L si (ltn0Sn 0)) ?D2e // /xp.
  by apply: eq_big_nat => l hl; rewrite gM.
pose yp i p := y (rcons i (p %/ r')%N) (p %% r')%N.
have divE k' b : (b < r')%N -> ((k' * r' + b) %/ r')%N = k' /\ ((k' * r' + b) %% r')%N = b.
  by move=> hb; rewrite divnMDl // divn_small // addn0 modnMDl modn_small.
have expand : sqsum (rcons (rcons ls C) C1) r' (fun i b => chain (rcons (rcons ls C) C1) i 0 b - y i b)
  = \sum_(i <- all_idx (modes (rcons ls C))) \sum_(0 <= p < n * r') (xp i p - yp i p) ^+ 2.
  rewrite /sqsum {1}/modes map_rcons sum_idx_rcons -/(modes _) sum_idxE.
  apply: eq_big_seq => i /mem_all_idx hi; rewrite sum_nat_mul; apply: eq_big_nat => k' /andP[_ hk'].
  by apply: eq_big_nat => b /andP[_ hb]; rewrite xE // /yp; have [-> ->] := divE k' b hb.
rewrite expand rev_cons nth_rcons size_rev So.
have szm : size (modes (rcons ls C)) = (size ls).+1 by rewrite size_map size_rcons.
have modE : modes (rcons (rcons ls C) C1) = rcons (modes (rcons ls C)) n by rewrite /modes !map_rcons.
rewrite ltnS leq_eqVlt in hk; case/orP: hk => [/eqP ek|hk]; last first.
(* inner bonds *)
  rewrite hk; pose y' i t := \sum_(0 <= p < n * r') get Vt [:: t; p] * yp i p.
  pose g' c j t := \sum_(0 <= p < n * r') get Vt [:: t; p] * g c (rcons j (p %/ r')%N) (p %% r')%N.
  have kd : (k.+1 <= size (modes (rcons ls C)))%N by rewrite szm ltnS ltnW.
  apply: le_trans (Qo k y' rB f g' hk hB _) _.
    move=> i j t; rewrite Mrc => hi hj ht; rewrite /y' /g'.
    under [in RHS]eq_bigr => c' _ do rewrite big_distrr /=.
    rewrite exchange_big /=; apply: eq_big_nat => p /andP[_ hp].
    have hp1 : (p %/ r' < n)%N by rewrite ltn_divLR.
    rewrite /yp rcons_cat yE; last exact: ltn_pmod.
    - by rewrite big_distrr /=; apply: eq_bigr => c' _; rewrite mulrCA.
    - by rewrite modE -cats1 takel_cat.
    - by rewrite modE -cats1 drop_cat ltn_neqAle kd andbT; case: eqP => [e|_] /=; [move: hk; rewrite szm in e; case: e => ->; rewrite ltnn|rewrite cats1 inb_rcons ?hj // (inb_size hj)].
  rewrite /sqsum Mrc sum_idxE big_seq [X in _ <= X]big_seq; apply: ler_sum => i /mem_all_idx hi.
  have hH t : (t < r)%N -> H i t = \sum_(0 <= p < n * r') get Vt [:: t; p] * xp i p.
    move=> ht; rewrite HE // /xp; under [in RHS]eq_bigr => p _ do rewrite big_distrr /=.
    rewrite exchange_big /=; apply: eq_big_nat => l /andP[_ hl].
    have -> : get us [:: l; t] = \sum_(0 <= p < n * r') get Vt [:: t; p] * get M [:: l; p].
      case: vals => _ _ _ eM; under eq_big_nat => p /andP[_ hp] do rewrite eM // big_distrr /=.
      rewrite exchange_big /= gus //.
      have ht' := leq_trans ht rk.
      rewrite -(sum_nat_delta_r (fun t' => get U [:: l; t'] * get Sv [:: t']) ht').
      apply: eq_big_nat => t' /andP[_ ht'']; rewrite -(oV' t' t) // big_distrr /=; apply: eq_bigr => p _.
      by rewrite [RHS]mulrC -!mulrA; congr (_ * _); rewrite !mulrA [RHS]mulrC mulrA.
    by rewrite big_distrr /=; apply: eq_bigr => p _; rewrite mulrCA.
  apply: le_trans (bessel (fun p => xp i p - yp i p) iV); rewrite le_eqVlt; apply/orP; left; apply/eqP.
  apply: eq_big_nat => t /andP[_ ht]; congr (_ ^+ 2); rewrite -/(H i t) hH // /y' -sumrB.
  by apply: eq_bigr => p _; rewrite mulrBr.
(* the outermost bond *)
subst k; rewrite ltnn eqxx; case: (ltnP r (nth 0%N mr (size ls))) => hr.
  have [_ _ v2] : disc_ok 0 r0 r (nth 0%N mr (size ls)) (get Sv [:: 0%N] ^+ 2) (drop r (ndata Sv)).
    rewrite /r ec; case: vals => _ v1 v2 _.
    by apply: (@disc_okI _ _ _ _ _ (minn r0 (n * r'))) => //; exact: geq_minl.
  rewrite big1_seq => [|s /andP[_ hs]]; first by apply: sumr_ge0 => i _; apply: sumr_ge0 => p _; exact: sqr_ge0.
  by have := v2 hr (lexx 0) s hs; rewrite expr0n mul0r => h; apply/eqP; rewrite eq_le h sqr_ge0.
have rBr : (rB <= r)%N by apply: leq_trans hB _; rewrite geq_max r_p hr.
pose f' l c := \sum_(i <- all_idx (modes (rcons ls C))) L' i l * f i c.
pose g' c p := g c [:: (p %/ r')%N] (p %% r')%N.
apply: le_trans (eckart_young f' g' oU' oV' vals rk rBr) _.
rewrite [X in _ <= X]exch_seq [X in X <= _]exch_seq big_nat [X in _ <= X]big_nat; apply: ler_sum => p /andP[_ hp].
apply: le_trans (bessel (fun i => xp i p - yp i p) iL); rewrite le_eqVlt; apply/orP; left; apply/eqP.
apply: eq_big_nat => l /andP[_ hl]; congr (_ ^+ 2).
under [in RHS]eq_bigr => i _ do rewrite mulrBr.
rewrite sumrB; congr (_ - _).
  rewrite /xp; under [in RHS]eq_bigr => i _ do rewrite big_distrr /=.
  rewrite exchange_big /= -(sum_nat_delta (fun l' => get M [:: l'; p]) hl).
  by apply: eq_big_nat => l' /andP[_ hl']; rewrite eq_sym -(iL l l') // big_distrl /=; apply: eq_bigr => i _; rewrite mulrA.
rewrite /f' /g'; under eq_bigr => c' _ do rewrite big_distrl /=.
rewrite exchange_big /=; apply: eq_big_seq => i /mem_all_idx hi.
have hp1 : (p %/ r' < n)%N by rewrite ltn_divLR.
rewrite /yp -cats1 yE ?ltn_pmod //.
- by rewrite big_distrr /=; apply: eq_bigr => c' _; rewrite mulrA.
- by rewrite modE -cats1 takel_cat ?szm // take_oversize ?szm.
- by rewrite modE -cats1 drop_size_cat ?szm //= hp1.
Qed.
End Opt.
