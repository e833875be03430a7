(* Every tensor with small unfolding ranks has a train of DRM cores whose matrices span the
   ranges of all unfoldings. *)
From Coq Require Import String Ascii NArith.
From mathcomp Require Import all_ssreflect all_algebra.
From mathcomp Require Import zify.
From Verif Require Import Py Nd NdThy Ein Utils Tensor Spec LinSpec ChainThy TrimThy Sketch SkSpec RecSpec RecThy2 SkThy1 RoundThy RankThy AccSpec AccThy AccThy2 AccThy3 AccThy4 GenericSpec.
Set Implicit Arguments. Unset Strict Implicit. Unset Printing Implicit Defensive.
Import GRing.Theory Num.Theory.
Local Open Scope ring_scope.

Notation ra := rank_before.

Section Interface.
Variable R : rcfType.
Notation arr := (nd R).
Implicit Types (s : seq nat) (x : seq nat -> R).

Lemma span_cols s x mu r : (\rank (unfolding s x mu) <= r)%N ->
  exists P, \rank (unfolding s x mu *m fmat (drop mu.+1 s) P r) = \rank (unfolding s x mu).
Proof.
set X := unfolding s x mu => h.
pose G : 'M[R]_(prods (drop mu.+1 s), r) := pinvmx (row_base X) *m pid_mx (\rank X).
exists (fun j c => if insub (ravel (drop mu.+1 s) j) is Some q then if insub c is Some c' then G q c' else 0 else 0).
have -> : fmat (drop mu.+1 s) (fun j c => if insub (ravel (drop mu.+1 s) j) is Some q then if insub c is Some c' then G q c' else 0 else 0) r = G.
  by apply/matrixP=> q c; rewrite mxE ravelK // !valK.
have -> : X *m G = col_base X *m pid_mx (\rank X).
  transitivity (col_base X *m row_base X *m G); first by rewrite mulmx_base.
  have := mulmxVp (row_base_free X); rewrite /G; move: (pinvmx _) => Pi; move: (row_base X) (col_base X) => Rb Cb e.
  by rewrite mulmxA -(mulmxA Cb) e mulmx1.
rewrite mxrankMfree; last by rewrite /row_free rank_pid_mx.
by have := col_base_full X; rewrite /row_full => /eqP.
Qed.

Lemma interface s x rk : size rk = (size s).-1 ->
  (forall mu, (mu < (size s).-1)%N -> (\rank (unfolding s x mu) <= nth 0 rk mu)%N) ->
  forall m, (m <= (size s).-1)%N -> exists cs : seq arr,
   [/\ size cs = m, links 1 cs (ra rk m), [seq dim C 1 | C <- cs] = take m s, [seq dim C 2 | C <- cs] = take m rk &
    forall k, (k <= m)%N -> exists N, forall i q, inb (take k s) i -> inb (drop k s) q ->
      x (i ++ q) = \sum_(0 <= a < ra rk k) chain (take k cs) i 0 a * N a q].
Proof.
move=> sk hr; elim=> [|m IH] hm.
  exists [::]; rewrite !take0; split=> // k; rewrite leqn0 => /eqP->; exists (fun _ q => x q) => i q.
  by rewrite take0 drop0; case: i => //= _ _; rewrite big_nat1 mul1r.
have [|cs [sc lc d1 d2 hN]] := IH; first exact: ltnW.
have [N eN] := hN m (leqnn m).
have hs : (m < size s)%N by clear -hm; lia.
have [P /range_of[M eM]] := span_cols (hr m hm).
pose n := nth 0%N s m.
pose C : arr := tab [:: ra rk m; n; nth 0%N rk m] (fun i =>
  sum_idx (drop m.+1 s) (fun q => N (nth 0%N i 0) (nth 0%N i 1 :: q) * P q (nth 0%N i 2))).
have dC1 : dim C 1 = n by [].
have dC2 : dim C 2 = nth 0%N rk m by [].
exists (rcons cs C); split=> [||||k].
- by rewrite size_rcons sc.
- by apply: links_rconsI lc _ _; [exact: nwf_tab|].
- by rewrite map_rcons d1 (take_nth 0%N hs).
- by rewrite map_rcons d2 (take_nth 0%N) // sk.
rewrite leq_eqVlt => /orP[/eqP-> {k}|]; last first.
  rewrite ltnS => hk; have [N' e'] := hN k hk; exists N' => i q hi hq.
  by rewrite (e' i q hi hq) -cats1 takel_cat ?sc.
exists M => i q; rewrite (take_nth 0%N) // => hi hq.
have [i' [k [ei hi' hk]]] := inb_rconsP hi.
rewrite (eM i q) ?(take_nth 0%N hs) //; apply: eq_big_nat => c /andP[_ hc]; congr (_ * _).
have si' : size i' = size cs by rewrite (inb_size hi') size_takel ?sc // ltnW.
rewrite take_oversize ?size_rcons ?sc // ei (chain_rcons _ lc si' (ltn0Sn 0)) //.
transitivity (sum_idx (drop m.+1 s) (fun j => \sum_(0 <= l < ra rk m) chain cs i' 0 l * N l (k :: j) * P j c)).
  apply: eq_sum_idx => j hj; rewrite cat_rcons (eN i' (k :: j)) //.
    by rewrite take_oversize ?sc // big_distrl.
  by rewrite (drop_nth 0%N hs) /= hk hj.
rewrite sum_idx_big; apply: eq_big_nat => l /andP[_ hl].
rewrite get_tab /= ?hl ?hk ?hc // -sum_idxZ; apply: eq_sum_idx => j _; by rewrite mulrA.
Qed.
End Interface.
