(* The algebra of exact recovery, on functions of multi-indices. *)
From Coq Require Import String Ascii NArith.
From mathcomp Require Import all_ssreflect all_algebra.
From mathcomp Require Import zify.
From Verif Require Import Py Nd NdThy Ein Utils Tensor Spec LinSpec ChainThy Sketch SkSpec SkThy1 RecSpec.
Set Implicit Arguments. Unset Strict Implicit. Unset Printing Implicit Defensive.
Import GRing.Theory Num.Theory.
Local Open Scope ring_scope.

Lemma inb_rc s n i k : inb (rcons s n) (rcons i k) = inb s i && (k < n)%N.
Proof.
case: (eqVneq (size i) (size s)) => e; first by rewrite inb_rcons.
have -> : inb s i = false by apply/negP => /inb_size h; rewrite h eqxx in e.
by apply/negP => /inb_size; rewrite !size_rcons => -[h]; rewrite h eqxx in e.
Qed.

Section Recover.
Variable R : comRingType.
Notation arr := (nd R).
Notation C0 := (C0 R).
Variables (s : seq nat) (x : seq nat -> R) (f g : nat -> seq nat -> nat -> R) (lr rr : nat -> nat).
Variables (cs : seq arr) (M : nat -> nat -> seq nat -> R).
Notation d := (size s).
Notation T := (fun mu i c => chain (take mu cs) i 0 c).
Notation F := (fun mu c j => sum_idx (take mu s) (fun i' => at_left f (@one_fun R) mu i' c * x (i' ++ j))).
Hypothesis d1 : (1 < d)%N.
Hypothesis lk : links 1 cs 1.
Hypothesis dm : [seq dim C 1 | C <- cs] = s.
Hypothesis rk : forall mu, (mu < d.-1)%N -> dim (nth C0 cs mu) 2 = lr mu.

Lemma rec_size : size cs = d. Proof. by rewrite -dm size_map. Qed.
Lemma rec_links mu : (mu < d)%N -> links 1 (take mu cs) (at_left lr 1%N mu).
Proof.
case: mu => [|mu] hm; first by rewrite take0.
have sc := rec_size; have [|r [h _ _]] := @links_split R 1 cs 1 mu.+1 lk; first by rewrite sc ltnW.
rewrite /= -rk; last by clear -hm; lia.
suff -> : dim (nth C0 cs mu) 2 = r by [].
move: h; rewrite (take_nth C0) ?sc; last by clear -hm; lia.
by move/links_rcons=> [r' [_ _ e]]; rewrite /dim e.
Qed.
Hypothesis solve : forall mu a k b, (mu < d.-1)%N -> (a < at_left lr 1 mu)%N -> (k < nth 0 s mu)%N -> (b < rr mu)%N ->
  \sum_(0 <= c < lr mu) get (nth C0 cs mu) [:: a; k; c] * Omega_of (f mu) (g mu) s x mu c b =
  Psi_of (at_left f (@one_fun R) mu) (g mu) s x mu a k b.
Hypothesis range : forall mu i j, (mu < d.-1)%N -> inb (take mu.+1 s) i -> inb (drop mu.+1 s) j ->
  x (i ++ j) = \sum_(0 <= b < rr mu) sum_idx (drop mu.+1 s) (fun j' => x (i ++ j') * g mu j' b) * M mu b j.

(* X = T L X at every bond *)
Lemma rec_step mu i j : (mu < d)%N -> inb (take mu s) i -> inb (drop mu s) j ->
  \sum_(0 <= c < at_left lr 1%N mu) T mu i c * F mu c j = x (i ++ j).
Proof.
have sc := rec_size.
elim: mu i j => [|mu IH] i j hm hi hj.
  move: hi hj; rewrite take0 drop0; case: i => // _ hj.
  by rewrite big_nat1 take0 /= /one_fun !mul1r.
have hm1 : (mu < d.-1)%N by clear -hm; lia.
have hmd : (mu < d)%N by clear -hm; lia.
have ts : take mu.+1 s = rcons (take mu s) (nth 0%N s mu) by rewrite -take_nth.
move: (hi); rewrite {1}ts; case/lastP: i hi => [|i k] hi.
  by move/inb_size; rewrite size_rcons.
rewrite inb_rc => /andP[hi1 hk].
have -> : \sum_(0 <= c < at_left lr 1%N mu.+1) T mu.+1 (rcons i k) c * F mu.+1 c j =
          \sum_(0 <= a < at_left lr 1%N mu) T mu i a * F mu a (k :: j).
  have Om c : F mu.+1 c j = \sum_(0 <= b < rr mu) Omega_of (f mu) (g mu) s x mu c b * M mu b j.
    rewrite /= (eq_sum_idx (g := fun i' => \sum_(0 <= b < rr mu) (f mu i' c * sum_idx (drop mu.+1 s) (fun j' => x (i' ++ j') * g mu j' b)) * M mu b j)).
      rewrite sum_idx_big; apply: eq_bigr => b _; rewrite sum_idxZr; congr (_ * _).
      by apply: eq_sum_idx => i' _; rewrite -sum_idxZ; apply: eq_sum_idx => j' _; rewrite mulrA.
    by move=> i' hi'; rewrite (range hm1 hi' hj) big_distrr /=; apply: eq_bigr => b _; rewrite mulrA.
  have Ps a : F mu a (k :: j) = \sum_(0 <= b < rr mu) Psi_of (at_left f (@one_fun R) mu) (g mu) s x mu a k b * M mu b j.
    rewrite /= (eq_sum_idx (g := fun i' => \sum_(0 <= b < rr mu) (at_left f (@one_fun R) mu i' a * sum_idx (drop mu.+1 s) (fun j' => x (i' ++ k :: j') * g mu j' b)) * M mu b j)).
      rewrite sum_idx_big; apply: eq_bigr => b _; rewrite sum_idxZr; congr (_ * _).
      by apply: eq_sum_idx => i' _; rewrite -sum_idxZ; apply: eq_sum_idx => j' _; rewrite mulrA.
    move=> i' hi'; rewrite -cat_rcons (range hm1 _ hj) ?ts ?inb_rc ?hi' //.
    rewrite big_distrr /=; apply: eq_bigr => b _; rewrite mulrA; congr (_ * _ * _).
    by apply: eq_sum_idx => j' _; rewrite cat_rcons.
  rewrite [LHS](eq_big_nat _ _ (F2 := fun c => \sum_(0 <= a < at_left lr 1%N mu) \sum_(0 <= b < rr mu)
      chain (take mu cs) i 0 a * (get (nth C0 cs mu) [:: a; k; c] * Omega_of (f mu) (g mu) s x mu c b * M mu b j))); last first.
    move=> c /= hc; rewrite Om (take_nth C0) ?sc // (chain_rcons _ (rec_links hmd)) ?rk //; last first.
      by rewrite size_take sc hmd (inb_size hi1) size_take hmd.
    rewrite big_distrl; apply: eq_bigr => a _; rewrite big_distrr; apply: eq_bigr => b _ /=.
    by rewrite !mulrA.
  rewrite exchange_big_nat /=; apply: eq_big_nat => a /= ha.
  rewrite exchange_big_nat /= Ps big_distrr; apply: eq_big_nat => b /= hb.
  rewrite -(solve hm1 ha hk hb) -big_distrr /=; congr (_ * _).
  by rewrite big_distrl.
rewrite IH ?cat_rcons //.
by rewrite (drop_nth 0%N) //= hk.
Qed.

Hypothesis lastc : forall a k, (a < lr d.-2)%N -> (k < nth 0 s d.-1)%N ->
  get (nth C0 cs d.-1) [:: a; k; 0%N] = Psi_of (f d.-2) (@one_fun R) s x d.-1 a k 0.

Lemma rec_proj i k : inb (take d.-1 s) i -> (k < nth 0 s d.-1)%N ->
  chain cs (rcons i k) 0 0 = \sum_(0 <= c < lr d.-2) T d.-1 i c * sum_idx (take d.-1 s) (fun i' => f d.-2 i' c * x (rcons i' k)).
Proof.
move=> hi hk; have sc := rec_size; have hd : (d.-1 < d)%N by clear -d1; lia.
have el : at_left lr 1%N d.-1 = lr d.-2 by case: (d) d1 => [|[|n]].
have -> : chain cs (rcons i k) 0 0 = chain (rcons (take d.-1 cs) (nth C0 cs d.-1)) (rcons i k) 0 0.
  by rewrite -take_nth ?sc // prednK ?take_oversize ?sc //; clear -d1; lia.
have l1 : dim (nth C0 cs d.-1) 2 = 1%N.
  move: lk; rewrite -{1}(take_size cs) sc -(prednK (n := d)); last by clear -d1; lia.
  by rewrite (take_nth C0) ?sc // => /links_rcons[r' [_ _ e]]; rewrite /dim e.
rewrite (chain_rcons _ (rec_links hd)) ?l1 //; last by rewrite size_take sc hd (inb_size hi) size_take hd.
rewrite el; apply: eq_big_nat => c /= hc; rewrite lastc //; congr (_ * _).
rewrite /Psi_of; apply: eq_sum_idx => i' _; rewrite drop_oversize /=; last by clear -d1; lia.
by rewrite /one_fun mulr1 -cats1.
Qed.

Lemma recover i : inb s i -> chain cs i 0 0 = x i.
Proof.
have hd : (d.-1 < d)%N by clear -d1; lia.
have ts : s = rcons (take d.-1 s) (nth 0%N s d.-1).
  by rewrite -take_nth // prednK ?take_size //; clear -d1; lia.
rewrite {1}ts; case/lastP: i => [|i k]; first by move/inb_size; rewrite size_rcons.
rewrite inb_rc => /andP[hi hk]; rewrite rec_proj //.
have el : at_left lr 1%N d.-1 = lr d.-2 by case: (d) d1 => [|[|n]].
have ef : at_left f (@one_fun R) d.-1 = f d.-2 by case: (d) d1 => [|[|n]].
have := @rec_step d.-1 i [:: k] hd hi; rewrite cats1 el ef => <-.
  by apply: eq_bigr => c _; congr (_ * _); apply: eq_sum_idx => i' _; rewrite cats1.
by rewrite (drop_nth 0%N) // prednK ?drop_size /= ?hk //; clear -d1; lia.
Qed.
End Recover.
