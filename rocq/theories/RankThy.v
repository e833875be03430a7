(* Ranks of unfoldings: factorizations, tensor trains, and the trimming of ranks. *)
From Coq Require Import String Ascii NArith.
From mathcomp Require Import all_ssreflect all_algebra.
From mathcomp Require Import zify.
From Verif Require Import Py Nd NdThy Utils Tensor Spec LinSpec ChainThy TrimThy Sketch SkSpec RecSpec RecThy2 SkThy1 RoundThy.
Set Implicit Arguments. Unset Strict Implicit. Unset Printing Implicit Defensive.
Import GRing.Theory Num.Theory.
Local Open Scope ring_scope.

Section Rank.
Variable R : rcfType.
Notation arr := (nd R).
Implicit Types (s : seq nat) (x : seq nat -> R).

Definition bond_fac s mu r x := exists (f : seq nat -> nat -> R) (g : nat -> seq nat -> R), forall i j,
  inb (take mu.+1 s) i -> inb (drop mu.+1 s) j -> x (i ++ j) = \sum_(0 <= c < r) f i c * g c j.

Lemma bond_rankP s mu r x : bond_fac s mu r x <-> (\rank (unfolding s x mu) <= r)%N.
Proof.
split=> [[f [g e]]|h].
  have -> : unfolding s x mu = fmat (take mu.+1 s) f r *m (\matrix_(c < r, q < prods (drop mu.+1 s)) g c (unravel (drop mu.+1 s) q)).
    apply/matrixP => p q; rewrite !mxE e ?inb_unravel // big_mkord; apply: eq_bigr => c _; by rewrite !mxE.
  by apply: leq_trans (mxrankM_maxr _ _) _; apply: rank_leq_row.
set M := unfolding s x mu in h; have e := mulmx_base M.
pose gp (n k : nat) (A : 'M[R]_(n, k)) (i j : nat) : R := if (insub i : option 'I_n) is Some i' then if (insub j : option 'I_k) is Some j' then A i' j' else 0 else 0.
exists (fun i c => gp _ _ (col_base M) (ravel (take mu.+1 s) i) c), (fun c j => gp _ _ (row_base M) c (ravel (drop mu.+1 s) j)).
move=> i j hi hj; have pi := ravel_lt hi; have pj := ravel_lt hj.
have -> : x (i ++ j) = M (Ordinal pi) (Ordinal pj) by rewrite mxE /= !unravelK.
rewrite -[in LHS]e mxE [in RHS](big_cat_nat _ _ _ (leq0n _) h) /= [X in _ + X]big1_seq ?addr0; last first.
  by move=> c; rewrite mem_index_iota /= => /andP[hc _]; rewrite /gp (_ : (insub c : option 'I_(\rank M)) = None) ?mulr0 // insubN // -leqNgt.
rewrite big_mkord; apply: eq_bigr => c _; rewrite /gp !valK.
by rewrite (insubT (fun k => k < _)%N pi) (insubT (fun k => k < _)%N pj).
Qed.

Lemma take_next s mu : (mu.+1 < size s)%N -> take mu.+2 s = rcons (take mu.+1 s) (nth 0%N s mu.+1).
Proof. by move=> h; rewrite (take_nth 0%N h). Qed.
Lemma drop_next s mu : (mu.+1 < size s)%N -> drop mu.+1 s = nth 0%N s mu.+1 :: drop mu.+2 s.
Proof. by move=> h; rewrite (drop_nth 0%N h). Qed.

(* one mode further the rank grows at most by the size of that mode, in both directions *)
Lemma bond_next s mu r x : (mu.+1 < size s)%N -> bond_fac s mu r x -> bond_fac s mu.+1 (r * nth 0 s mu.+1)%N x.
Proof.
move=> h [f [g e]]; set n := nth 0%N s mu.+1.
exists (fun i c => f (take mu.+1 i) (c %/ n)%N * (last 0%N i == (c %% n)%N)%:R), (fun c j => g (c %/ n)%N ((c %% n)%N :: j)) => i j.
rewrite (take_next h) => /inb_rconsP[i' [k [-> hi hk]]] hj; rewrite -/n in hk.
have n0 : (0 < n)%N by apply: leq_ltn_trans hk.
have st : take mu.+1 (rcons i' k) = i'.
  by rewrite -cats1 take_size_cat // (inb_size hi) size_takel // ltnW.
rewrite cat_rcons e //; last by rewrite (drop_next h) /= -/n hk hj.
rewrite sum_nat_mul; apply: eq_big_nat => c _; rewrite st last_rcons.
rewrite -(sum_nat_delta (fun l => f i' c * g c (l :: j)) hk); apply: eq_big_nat => l /andP[_ hl].
rewrite divnMDl // divn_small // addn0 modnMDl modn_small // [k == l]eq_sym.
by rewrite mulrA [f _ _ * _]mulrC.
Qed.
Lemma bond_prev s mu r x : (mu.+1 < size s)%N -> bond_fac s mu.+1 r x -> bond_fac s mu (nth 0 s mu.+1 * r)%N x.
Proof.
move=> h [f [g e]]; set n := nth 0%N s mu.+1.
exists (fun i c => f (rcons i (c %% n)%N) (c %/ n)%N), (fun c j => (head 0%N j == (c %% n)%N)%:R * g (c %/ n)%N (behead j)) => i j.
rewrite (drop_next h) => hi; case: j => [|k j] //= /andP[hk hj]; rewrite -/n in hk.
have n0 : (0 < n)%N by apply: leq_ltn_trans hk.
rewrite -cat_rcons e //; last by rewrite (take_next h) inb_rcons ?hi // (inb_size hi).
rewrite mulnC sum_nat_mul; apply: eq_big_nat => c _.
rewrite -(sum_nat_delta (fun l => f (rcons i l) c * g c j) hk); apply: eq_big_nat => l /andP[_ hl].
rewrite divnMDl // divn_small // addn0 modnMDl modn_small // [k == l]eq_sym.
by rewrite mulrCA.
Qed.
Lemma bond_mono s mu r r' x : (r <= r')%N -> bond_fac s mu r x -> bond_fac s mu r' x.
Proof. by move=> h /bond_rankP h'; apply/bond_rankP; apply: leq_trans h' h. Qed.

(* a train factorizes at every bond with its rank *)
Lemma bond_train (cs : seq arr) mu : wf_tt cs -> (mu.+1 < size cs)%N ->
  bond_fac (tshape (TT cs)) mu (nth 0%N (tt_rank cs) mu) (den (TT cs)).
Proof.
case/andP => _ L h; have [r [L1 L2 er]] := links_split L (ltnW h).
have -> : nth 0%N (tt_rank cs) mu = r.
  rewrite er /tt_rank -[in RHS]nth_behead -behead_map; apply: set_nth_default.
  by rewrite size_behead size_map -ltnS prednK // (ltn_trans _ h).
exists (fun i c => chain (take mu.+1 cs) i 0 c), (fun c j => chain (drop mu.+1 cs) j c 0) => i j hi hj.
rewrite /= -[in LHS](cat_take_drop mu.+1 cs) (chain_cat _ _ _ L1) //.
by rewrite (inb_size hi) /= -map_take size_map.
Qed.

(* the ranks of the unfoldings (at least 1) are feasible, hence trimming keeps bounds on them *)
Lemma rank_feasible s x : all (fun n => 0 < n)%N s -> (0 < size s)%N ->
  feasible s [seq maxn 1 (\rank (unfolding s x mu)) | mu <- iota 0 (size s).-1].
Proof.
move=> ps s0; split; first by rewrite size_map size_iota.
pose v := [seq maxn 1 (\rank (unfolding s x mu)) | mu <- iota 0 (size s).-1].
have sv : size v = (size s).-1 by rewrite size_map size_iota.
have vn k : (k < (size s).-1)%N -> nth 0%N v k = maxn 1 (\rank (unfolding s x k)).
  by move=> h; rewrite (nth_map 0%N) ?size_iota // nth_iota.
move=> i hi; rewrite -/v; have ni : (0 < nth 0 s i)%N by apply: (all_nthP 0%N ps).
have Rn k : (k < (size s).-1)%N -> nth 0%N (1%N :: v ++ [:: 1%N]) k.+1 = maxn 1 (\rank (unfolding s x k)).
  by move=> h; rewrite /= nth_cat sv h vn.
have Rl : nth 0%N (1%N :: v ++ [:: 1%N]) (size s) = 1%N.
  by rewrite -{1}(prednK s0) /= nth_cat sv ltnn subnn.
have last_row k : (k.+2 = size s)%N -> (\rank (unfolding s x k) <= nth 0 s k.+1)%N.
  move=> e; apply: leq_trans (rank_leq_col _) _; rewrite drop_next ?e // drop_oversize ?e //=.
  by rewrite muln1.
cbv zeta; case: i hi ni => [|k] hi ni.
  change (nth 0%N (1%N :: v ++ [:: 1%N]) 0) with 1%N; rewrite mul1n; case: (leqP (size s) 1) => h1.
    have e : size s = 1%N by clear -h1 s0; lia.
    by move: Rl; rewrite e => ->; split=> //; rewrite muln1.
  have h0 : (0 < (size s).-1)%N by clear -h1; lia.
  rewrite Rn // geq_max ni /=; split; last by rewrite muln_gt0 ni leq_max.
  by apply: leq_trans (rank_leq_row _) _; case: (s) s0 => //= n s'; rewrite take0 /= muln1.
have hk : (k < (size s).-1)%N by clear -hi; lia.
rewrite (Rn k) //; case: (ltnP k.+1 (size s).-1) => h1.
  rewrite Rn // !geq_max !muln_gt0 !ni !leq_max /=; split.
    have /(bond_next hi)/bond_rankP h : bond_fac s k (\rank (unfolding s x k)) x by apply/bond_rankP.
    by apply: leq_trans h _; rewrite leq_mul2r leq_maxr orbT.
  have /(bond_prev hi)/bond_rankP h : bond_fac s k.+1 (\rank (unfolding s x k.+1)) x by apply/bond_rankP.
  by apply: leq_trans h _; rewrite leq_mul2l leq_maxr orbT.
have e : (k.+2 = size s)%N by clear -hi h1; lia.
rewrite e Rl muln1 muln_gt0 ni !leq_max /= geq_max ni last_row //.
Qed.

(* ranks bounded by a request are bounded by the trimmed request *)
Lemma rank_trim s x rk : all (fun n => 0 < n)%N s -> all (fun n => 0 < n)%N rk -> (0 < size s)%N -> size rk = (size s).-1 ->
  (forall mu, (mu < (size s).-1)%N -> (\rank (unfolding s x mu) <= nth 0 rk mu)%N) ->
  forall mu, (mu < (size s).-1)%N -> (\rank (unfolding s x mu) <= nth 0 (trim_ranks s rk) mu)%N.
Proof.
move=> ps pr s0 sr h mu hm; have [_ _ _ tg] := trim_bounds ps pr s0 sr.
have [|_ hb] := tg _ (rank_feasible x ps s0).
  split; first by rewrite size_map size_iota sr.
  move=> k; case: (ltnP k (size s).-1) => hk; last by rewrite nth_default ?size_map ?size_iota.
  rewrite (nth_map 0%N) ?size_iota // nth_iota // add0n geq_max h // andbT.
  by apply: (all_nthP 0%N pr); rewrite sr.
apply: leq_trans (hb mu); rewrite (nth_map 0%N) ?size_iota // nth_iota // add0n; exact: leq_maxr.
Qed.
End Rank.
