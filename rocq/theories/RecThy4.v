(* Exact recovery of the streaming sketch. *)
From Coq Require Import String Ascii NArith.
From mathcomp Require Import all_ssreflect all_algebra.
From mathcomp Require Import zify.
From Verif Require Import Py Nd NdThy Ein Utils Tensor Spec LinSpec ChainThy TensorThy2 SweepThy RoundThy Sketch SkSpec SkThy1 SkThy2 SkThy10 SkThy12 RecSpec RecThy1 RecThy2 RecThy3.
Set Implicit Arguments. Unset Strict Implicit. Unset Printing Implicit Defensive.
Import GRing.Theory Num.Theory.
Local Open Scope ring_scope.

Section Psi.
Variable R : comRingType.
(* Psi lies in the row space of Omega (right) or the column space (left) *)
Lemma psi_omegaR s (x : seq nat -> R) mu f f' g l N a k b : (mu < size s)%N -> (k < nth 0 s mu)%N ->
  (forall i j, inb (take mu.+1 s) i -> inb (drop mu.+1 s) j ->
     x (i ++ j) = \sum_(0 <= c < l) N i c * sum_idx (take mu.+1 s) (fun i' => f i' c * x (i' ++ j))) ->
  Psi_of f' g s x mu a k b = \sum_(0 <= c < l) sum_idx (take mu s) (fun i => f' i a * N (rcons i k) c) * Omega_of f g s x mu c b.
Proof.
move=> hm hk H; rewrite /Psi_of.
under [RHS]eq_bigr => c _ do rewrite -sum_idxZr.
rewrite -sum_idx_big; apply: eq_sum_idx => i hi.
rewrite (eq_sum_idx (g := fun j => \sum_(0 <= c < l) f' i a * N (rcons i k) c * sum_idx (take mu.+1 s) (fun i' => f i' c * x (i' ++ j) * g j b))).
  rewrite sum_idx_big; apply: eq_bigr => c _; rewrite sum_idxZ /Omega_of; congr (_ * _).
  by rewrite sum_idx_exch.
move=> j hj; rewrite -cat_rcons (H _ j) //; last by rewrite (take_nth 0%N) // inb_rc hi.
rewrite big_distrr big_distrl; apply: eq_bigr => c _ /=; rewrite mulrA -mulrA; congr (_ * _).
by rewrite -sum_idxZr.
Qed.
Lemma psi_omegaL s (x : seq nat -> R) mu f g g' r M a k b : (mu.+1 < size s)%N -> (k < nth 0 s mu.+1)%N ->
  (forall i j, inb (take mu.+1 s) i -> inb (drop mu.+1 s) j ->
     x (i ++ j) = \sum_(0 <= c < r) sum_idx (drop mu.+1 s) (fun j' => x (i ++ j') * g j' c) * M c j) ->
  Psi_of f g' s x mu.+1 a k b = \sum_(0 <= c < r) Omega_of f g s x mu a c * sum_idx (drop mu.+2 s) (fun j => M c (k :: j) * g' j b).
Proof.
move=> hm hk H; rewrite /Psi_of.
under [RHS]eq_bigr => c _ do rewrite -sum_idxZr.
rewrite -sum_idx_big; apply: eq_sum_idx => i hi.
rewrite (eq_sum_idx (g := fun j => \sum_(0 <= c < r) (f i a * sum_idx (drop mu.+1 s) (fun j' => x (i ++ j') * g j' c)) * (M c (k :: j) * g' j b))).
  rewrite sum_idx_big; apply: eq_bigr => c _; rewrite sum_idxZ; congr (_ * _).
  by rewrite -sum_idxZ; apply: eq_sum_idx => j _; rewrite mulrA.
move=> j hj; rewrite (H i (k :: j)) //; last by rewrite (drop_nth 0%N) //= hk.
by rewrite big_distrr big_distrl; apply: eq_bigr => c _ /=; rewrite !mulrA.
Qed.
End Psi.

Section Stream.
Variable R : rcfType.
Notation arr := (nd R).
Notation C0 := (C0 R).
Notation one_fun := (@one_fun R).
Variable lstsq : arr -> arr -> res arr.
Hypothesis hl : lstsq_contract lstsq.
Variables (s : seq nat) (x : seq nat -> R) (f g : nat -> seq nat -> nat -> R) (lr rr : nat -> nat) (c : container R).
Notation d := (size s).
Hypothesis d1 : (1 < d)%N.
Hypothesis hc : is_sketch_with f g lr rr s x c.
Hypothesis ps : forall mu, (mu < d)%N -> (0 < nth 0 s mu)%N.
Hypothesis pl : forall mu, (mu < d.-1)%N -> (0 < lr mu)%N.
Hypothesis pr : forall mu, (mu < d.-1)%N -> (0 < rr mu)%N.

Definition asmL (cs : seq arr) : Prop :=
  [/\ links 1 cs 1, [seq dim C 1 | C <- cs] = s, forall mu, (mu < d.-1)%N -> dim (nth C0 cs mu) 2 = rr mu,
      forall mu i k b, (mu < d.-1)%N -> (i < rr mu)%N -> (k < nth 0 s mu.+1)%N -> (b < at_right rr 1 d mu.+1)%N ->
        \sum_(0 <= a < lr mu) get (nth C0 (Omega_mats c) mu) [:: a; i] *
          (\sum_(0 <= q < rr mu) get (nth C0 (Omega_mats c) mu) [:: a; q] * get (nth C0 cs mu.+1) [:: q; k; b]
            - get (nth C0 (Psi_cores c) mu.+1) [:: a; k; b]) = 0 &
      nth C0 cs 0 = nth C0 (Psi_cores c) 0].

Lemma asmLE : or_linalg (assemble lstsq c DirLeft) asmL.
Proof.
case: hc => sP sO hP hO; rewrite /assemble /=.
have d0 : (0 < d)%N by clear -d1; lia.
have -> : pyget (Psi_cores c) 0 = Ok (nth C0 (Psi_cores c) 0) by rewrite (pygetE C0) ?sP.
rewrite [bind (Ok _) _]/=.
have szz : size (zip (behead (Psi_cores c)) (Omega_mats c)) = d.-1.
  by rewrite size_zip size_behead sP sO minnn.
set l := zip _ _ in szz *; have hd : (d.-1 < d)%N by clear -d1; lia.
have nl mu : (mu < d.-1)%N -> nth (C0, C0) l mu = (nth C0 (Psi_cores c) mu.+1, nth C0 (Omega_mats c) mu).
  by move=> hm; rewrite nth_zip ?size_behead ?sP ?sO // nth_behead.
pose Q mu C := [/\ nwf C, nshape C = [:: rr mu; nth 0%N s mu.+1; at_right rr 1%N d mu.+1] &
    forall i k b, (i < rr mu)%N -> (k < nth 0 s mu.+1)%N -> (b < at_right rr 1 d mu.+1)%N ->
        \sum_(0 <= a < lr mu) get (nth C0 (Omega_mats c) mu) [:: a; i] *
          (\sum_(0 <= q < rr mu) get (nth C0 (Omega_mats c) mu) [:: a; q] * get C [:: q; k; b]
            - get (nth C0 (Psi_cores c) mu.+1) [:: a; k; b]) = 0].
apply: or_bind; first apply: (@mapM_or _ _ (C0, C0) C0 _ l Q).
  rewrite szz => mu hm; rewrite nl //.
  have hm1 : (mu.+1 < d)%N by clear -hm; lia.
  have [wP shP _] := hP mu.+1 hm1; have [wW shW _] := hO mu hm.
  apply: (cellL hl wP shP wW shW); [exact: pl|exact: ps| |exact: pr].
  by rewrite /at_right; case: ifP => // h; apply: pr.
rewrite szz => m [sm hm].
have [wP shP _] := hP 0%N d0; rewrite /= in shP *.
have sz : size (nth C0 (Psi_cores c) 0 :: m) = d by rewrite /= sm prednK.
pose r mu := at_left (at_right rr 1%N d) 1%N mu.
have er : at_right rr 1%N d 0%N = rr 0%N by rewrite /at_right; case: ifP => //; clear -d1; lia.
have shape mu : (mu < d)%N -> nwf (nth C0 (nth C0 (Psi_cores c) 0 :: m) mu) /\
   nshape (nth C0 (nth C0 (Psi_cores c) 0 :: m) mu) = [:: r mu; nth 0%N s mu; r mu.+1].
  case: mu => [|mu] hmu //=; have hd1 : (mu < d.-1)%N by clear -hmu; lia.
  by have [h1 h2 _] := hm mu hd1; rewrite h1 h2; split=> //; congr [:: _; _; _]; rewrite /at_right hd1.
split=> //.
- have e1 : r d = 1%N by rewrite /r; case: (d) d0 => //= n _; rewrite /at_right ltnn.
  rewrite -[X in links _ _ X]e1.
  apply: (@links_seq R r _ d sz) => mu hmu; have [h1 h2] := shape mu hmu; by split=> //; rewrite /dim h2.
- apply: (@eq_from_nth _ 0%N); rewrite size_map sz // => mu hmu.
  by rewrite (nth_map C0) ?sz //; have [_ e] := shape mu hmu; rewrite /dim e.
- move=> mu hmu; have [|_ e] := shape mu; first by clear -hmu; lia.
  by rewrite /dim e /= /at_right hmu.
- by move=> mu i k b hmu hi hk hb; have [_ _ ->] := hm mu hmu.
Qed.

Variables (M : nat -> nat -> seq nat -> R) (N : nat -> seq nat -> nat -> R).
Hypothesis range : forall mu i j, (mu < d.-1)%N -> inb (take mu.+1 s) i -> inb (drop mu.+1 s) j ->
  x (i ++ j) = \sum_(0 <= b < rr mu) sum_idx (drop mu.+1 s) (fun j' => x (i ++ j') * g mu j' b) * M mu b j.
Hypothesis corange : forall mu i j, (mu < d.-1)%N -> inb (take mu.+1 s) i -> inb (drop mu.+1 s) j ->
  x (i ++ j) = \sum_(0 <= a < lr mu) N mu i a * sum_idx (take mu.+1 s) (fun i' => f mu i' a * x (i' ++ j)).

Lemma exactR cs : asmR s lr rr c cs -> forall i, inb s i -> chain cs i 0 0 = x i.
Proof.
move=> [lk dm rk ne la]; have [_ _ hP hO] := hc.
apply: (@recover R s x f g lr rr cs M d1 lk dm rk _ range).
- move=> mu a k b hm ha hk hb; have hmd : (mu < d)%N by clear -hm; lia.
  have er : at_right rr 1%N d mu = rr mu by rewrite /at_right hm.
  have eg : at_right g one_fun d mu = g mu by rewrite /at_right hm.
  have [_ _ gO] := hO mu hm; have [_ _ gP] := hP mu hmd; rewrite er eg in gP.
  rewrite -gP // -(@lsq_exact R (rr mu) (lr mu) (fun b q => get (nth C0 (Omega_mats c) mu) [:: q; b])
     (fun q => get (nth C0 cs mu) [:: a; k; q])
     (fun q => sum_idx (take mu s) (fun i => at_left f one_fun mu i a * N mu (rcons i k) q))
     (fun b => get (nth C0 (Psi_cores c) mu) [:: a; k; b]) _ _ b hb).
  + by apply: eq_big_nat => q hq; rewrite mulrC gO.
  + move=> b' hb'; rewrite gP // (psi_omegaR _ (g mu) a b' hmd hk (fun i j => @corange mu i j hm)).
    by apply: eq_big_nat => q hq; rewrite mulrC gO.
  + by move=> i hi; apply: ne.
move=> a k ha hk; rewrite la; have hd : (d.-1 < d)%N by clear -d1; lia.
have [_ _ gP] := hP d.-1 hd; have el A (u : nat -> A) z : at_left u z d.-1 = u d.-2 by case: (d) d1 => [|[|n]].
by rewrite gP ?el // /at_right ltnn.
Qed.

Lemma exactL cs : asmL cs -> forall i, inb s i -> chain cs i 0 0 = x i.
Proof.
move=> [lk dm rk ne la]; have [_ _ hP hO] := hc.
apply: (@recoverL R s x f g lr rr cs N d1 lk dm rk _ _ corange).
- move=> mu a k b hm ha hk hb; have hmd : (mu.+1 < d)%N by clear -hm; lia.
  have [_ _ gO] := hO mu hm; have [_ _ gP] := hP mu.+1 hmd.
  rewrite -gP // -(@lsq_exact R (lr mu) (rr mu) (fun a q => get (nth C0 (Omega_mats c) mu) [:: a; q])
     (fun q => get (nth C0 cs mu.+1) [:: q; k; b])
     (fun q => sum_idx (drop mu.+2 s) (fun j => M mu q (k :: j) * at_right g one_fun d mu.+1 j b))
     (fun a => get (nth C0 (Psi_cores c) mu.+1) [:: a; k; b]) _ _ a ha).
  + by apply: eq_big_nat => q hq; rewrite gO.
  + move=> a' ha'; rewrite gP // (psi_omegaL (f mu) _ a' b hmd hk (fun i j => @range mu i j hm)).
    by apply: eq_big_nat => q hq; rewrite gO.
  + by move=> i hi; apply: ne.
move=> k b hk hb; rewrite la; have d0 : (0 < d)%N by clear -d1; lia.
have [_ _ gP] := hP 0%N d0; have dd : (0 < d.-1)%N by clear -d1; lia.
by rewrite gP // /at_right dd.
Qed.
End Stream.
