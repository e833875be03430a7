(* gather on out-of-range rows (tensor.py:275-286, 414-440, 726-732). *)
From Coq Require Import String Ascii.
From mathcomp Require Import all_ssreflect all_algebra.
From mathcomp Require Import zify.
From Verif Require Import Py Nd NdThy Ein Utils Tensor Spec ChainThy TensorThy TensorThy2 TensorThy3 TensorThy4 GatherThy.
Set Implicit Arguments. Unset Strict Implicit. Unset Printing Implicit Defensive.
Import GRing.Theory.
Local Open Scope ring_scope.

Local Arguments tt_gather_step : simpl never.

Section Gather.
Variable R : comRingType.
Notation arr := (nd R).
Implicit Types (C res : arr) (cs todo done : seq arr).

(* entry if the index is valid, 0 otherwise *)
Definition or0 (s i : seq nat) (x : R) : R := if inb s i then x else 0.

Lemma tt_gather_fold0 todo done idx N r res r' :
  links 1 done r -> links r todo r' -> size idx = size (done ++ todo) ->
  nwf res -> nshape res = [:: N; r] ->
  (forall k z, (k < N)%N -> (z < r)%N -> let i := take (size done) (column idx k) in
     get res [:: k; z] = or0 [seq dim C 1 | C <- done] i (chain done i 0 z)) ->
  exists2 T, foldM (tt_gather_step idx N) res (zip (iota (size done) (size todo)) todo) = Ok T &
  [/\ nwf T, nshape T = [:: N; r'] & forall k z, (k < N)%N -> (z < r')%N ->
    get T [:: k; z] = or0 [seq dim C 1 | C <- done ++ todo] (column idx k) (chain (done ++ todo) (column idx k) 0 z)].
Proof.
elim: todo done r res => [|C todo IH] done r res Hl Ht Hs Hr Sr Gr.
  move: Ht => /= /eqP <-; exists res => //; split=> // k z Hk Hz.
  by rewrite Gr // cats0 take_oversize // size_map Hs cats0.
case/and3P: Ht => HC /eqP SC Ht /=.
have Hd : (size done < size idx)%N by rewrite Hs size_cat /= addnS ltnS leq_addr.
have [T ET [HT ST GT]] := gather_stepE Hd SC Sr; rewrite ET /=.
have [|||||T' ET' [H1 H2 H3]] := IH (rcons done C) (dim C 2) T _ Ht; last first.
- rewrite cat_rcons in H3; exists T' => //.
  by rewrite size_rcons in ET'.
- move=> k z Hk Hz; rewrite GT //; cbv zeta; rewrite size_rcons.
  have Hlt : (size done < size (column idx k))%N.
    by rewrite size_map Hs size_cat /= addnS ltnS leq_addr.
  have sz : size (take (size done) (column idx k)) = size [seq dim C0 1 | C0 <- done].
    by rewrite size_take Hlt size_map.
  rewrite (take_nth 0%N) // /or0 map_rcons inb_rcons //.
  have -> : nth 0%N (column idx k) (size done) = nth 0%N (nth [::] idx (size done)) k.
    by rewrite /column (nth_map [::]) // Hs size_cat /= addnS ltnS leq_addr.
  rewrite (chain_rcons _ Hl) //; last by rewrite sz size_map.
  case hb : (inb _ _) => /=; case: ifP => // hj.
  + by apply: eq_big_nat => l /= Hl'; rewrite Gr // /or0 hb.
  + by rewrite big_nat big1 // => l /= Hl'; rewrite Gr // /or0 hb mul0r.
- exact: ST.
- exact: HT.
- by rewrite cat_rcons.
- exact: links_rconsI Hl HC SC.
Qed.

Lemma tt_gather0E C0 cs i0 idx N : wf_tt (C0 :: cs) -> size idx = size cs ->
  all (fun row => size row == N) (i0 :: idx) -> all (fun j => j < dim C0 1)%N i0 ->
  tt_gather (C0 :: cs) (i0 :: idx) =
  Ok (rows_at (i0 :: idx) N (fun i => or0 (tshape (TT (C0 :: cs))) i (den (TT (C0 :: cs)) i))).
Proof.
move=> w Hsz Hrow Hi0; move: w => /andP[_] /= /and3P[HC0 /eqP SC0 Hl].
have Ei0 : size i0 = N by case/andP: Hrow => /eqP.
rewrite /tt_gather Ei0 eqxx; have Hr' : all (fun row : seq nat => size row == N) idx by case/andP: Hrow.
rewrite Hr' [_ && _]/=.
have P1 : prods (behead (nshape C0)) = prods (nshape C0).
  by rewrite SC0 /= !muln1 mul1n.
have [c0 -> [Hc0 Sc0 Gc0]] := reshape_spec HC0 P1; rewrite /=.
rewrite SC0 /= in Sc0.
rewrite (take0E Sc0) //=.
set T := tab2 _ _ _.
have L1 : links 1 [:: C0] (dim C0 2) by rewrite /= HC0 {1}SC0 !eqxx.
have [||||T' ET' [H1 H2 H3]] := @tt_gather_fold0 cs [:: C0] (i0 :: idx) N (dim C0 2) T 1 L1 Hl _.
- by rewrite /= Hsz.
- exact: nwf_tab.
- by rewrite /= Ei0.
- move=> k z Hk Hz i; rewrite get_tab2 ?Ei0 //.
  have -> : i = [:: nth 0%N i0 k] by rewrite /i /= take0.
  have h : (nth 0%N i0 k < dim C0 1)%N by apply: (all_nthP _ Hi0); rewrite Ei0.
  rewrite chain1 // /or0 /= h /=.
  apply: Gc0; rewrite {1 2}SC0 /=; lia.
rewrite /= in ET' *; rewrite ET' /= (ndata_col H1 H2); congr Ok.
apply/eq_in_map => k; rewrite mem_iota => /andP[_ Hk]; exact: H3.
Qed.

Lemma gather_fold_short todo m idx N r res r' :
  links r todo r' -> (m <= size idx < m + size todo)%N -> nshape res = [:: N; r] ->
  all (fun C => 0 < dim C 1)%N todo ->
  foldM (tt_gather_step idx N) res (zip (iota m (size todo)) todo) = Err IndexError.
Proof.
elim: todo m r res => [|C todo IH] m r res; first by move=> _ /=; lia.
move=> /and3P[HC /eqP SC Ht] hm Sr /= /andP[p0 ps].
case: (ltnP m (size idx)) => hi; last first.
  by rewrite /tt_gather_step ltnNge hi /= (_ : (dim C 1 == 0%N) = false) //; lia.
have [T -> [HT ST GT]] := gather_stepE hi SC Sr; rewrite /=.
by apply: (IH _ (dim C 2)) => //; move: hm; rewrite /=; lia.
Qed.

Lemma tt_gather_short C0 cs i0 idx N : wf_tt (C0 :: cs) ->
  all (fun row => size row == N) (i0 :: idx) -> all (fun j => j < dim C0 1)%N i0 ->
  (0 < size (i0 :: idx) < size (tshape (TT (C0 :: cs))))%N -> all (fun n => 0 < n)%N (tshape (TT (C0 :: cs))) ->
  tt_gather (C0 :: cs) (i0 :: idx) = Err IndexError.
Proof.
move=> w Hrow Hi0 Hsz pos; move: w => /andP[_] /= /and3P[HC0 /eqP SC0 Hl].
have Ei0 : size i0 = N by case/andP: Hrow => /eqP.
rewrite Ei0 eqxx; have Hr' : all (fun row : seq nat => size row == N) idx by case/andP: Hrow.
rewrite Hr' [_ && _]/=.
have P1 : prods (behead (nshape C0)) = prods (nshape C0).
  by rewrite SC0 /= !muln1 mul1n.
have [c0 -> [Hc0 Sc0 Gc0]] := reshape_spec HC0 P1; rewrite /=.
rewrite SC0 /= in Sc0.
rewrite (take0E Sc0) //= (gather_fold_short Hl) //.
- by move: Hsz; rewrite /= size_map; lia.
- by rewrite Ei0.
by move: pos => /= /andP[_]; rewrite all_map.
Qed.

Lemma cp_take_out cs (idx : seq (seq nat)) N r res :
  all (fun C => nwf C && (nshape C == [:: dim C 0; r])) cs ->
  all (fun row => size row == N) idx ->
  nwf res -> nshape res = [:: N; r] ->
  ~~ all (fun p => all (fun j => (j < dim p.1 0)%N) p.2) (zip cs idx) ->
  foldM (fun r p => do c <- take_ax 0 p.2 p.1; nmul r c) res (zip cs idx) = Err IndexError.
Proof.
elim: cs idx res => [|C cs IH] [|row idx] res //= /andP[/andP[HC /eqP SC] Hcs] /andP[/eqP Hrow Hrows] Hr Sr.
rewrite negb_and; case h : (all _ row) => /=; last by rewrite /take_ax h.
move=> Hout; rewrite (take0E SC h) /= Hrow (nmul_same Sr (B := tab2 N r _) (n := r)) //=.
by apply: IH => //; apply: nwf_tab.
Qed.
End Gather.
