(* gather, split, partial_dense, zero, dot (tensor.py). *)
From Coq Require Import String Ascii.
From mathcomp Require Import all_ssreflect all_algebra.
From mathcomp Require Import zify.
From Verif Require Import Py Nd NdThy Ein Utils Tensor Spec ChainThy TensorThy TensorThy2 TensorThy3 TensorThy4.
Set Implicit Arguments. Unset Strict Implicit. Unset Printing Implicit Defensive.
Import GRing.Theory.
Local Open Scope ring_scope.

Local Arguments tt_gather_step : simpl never.

Section Gather.
Variable R : comRingType.
Notation arr := (nd R).
Notation tensor := (tensor R).
Implicit Types (X Y : tensor) (C res : arr) (cs todo done : seq arr).

Lemma pick1E C a n b j : nshape C = [:: a; n; b] -> (j < n)%N ->
  pick_ax 1 j C = Ok (tab2 a b (fun x z => get C [:: x; j; z])).
Proof.
move=> E Hj; rewrite /pick_ax /dim E /= Hj; congr Ok;
  by apply: tab_ext => x /inb2P[p [q [-> _ _]]].
Qed.

Lemma matmul22 (A B : arr) m k n : nshape A = [:: m; k] -> nshape B = [:: k; n] ->
  matmul A B = Ok (tab2 m n (fun i j => \sum_(0 <= l < k) get A [:: i; l] * get B [:: l; j])).
Proof.
move=> HA HB; rewrite /matmul HA HB eqxx; congr Ok;
  by apply: tab_ext => x /inb2P[p [q [-> _ _]]] /=; rewrite sumrE.
Qed.

Lemma take0E (A : arr) n r js : nshape A = [:: n; r] -> all (fun j => (j < n)%N) js ->
  take_ax 0 js A = Ok (tab2 (size js) r (fun k z => get A [:: nth 0%N js k; z])).
Proof.
move=> E Hj; rewrite /take_ax /dim E /= Hj; congr Ok;
  by apply: tab_ext => x /inb2P[p [q [-> _ _]]].
Qed.

Lemma gather_stepE idx N res i C a n b : (i < size idx)%N ->
  nshape C = [:: a; n; b] -> nshape res = [:: N; a] ->
  exists2 T, tt_gather_step idx N res (i, C) = Ok T &
  [/\ nwf T, nshape T = [:: N; b] & forall k z, (k < N)%N -> (z < b)%N ->
    get T [:: k; z] =
      let j := nth 0%N (nth [::] idx i) k in
      if (j < n)%N then \sum_(0 <= l < a) get res [:: k; l] * get C [:: l; j; z] else 0].
Proof.
move=> isz SC Sr; rewrite /tt_gather_step isz [_ || _]/=.
have Eb : dim C 2 = b by rewrite /dim SC.
have -> : dim C 1 = n by rewrite /dim SC.
rewrite Eb.
set f := tt_gather_inner _ _ _ _.
suff H : forall m, (m <= n)%N -> exists2 T, foldM f (zeros R [:: N; b]) (iota 0 m) = Ok T &
  [/\ nwf T, nshape T = [:: N; b] & forall k z, (k < N)%N -> (z < b)%N ->
    get T [:: k; z] =
      let j := nth 0%N (nth [::] idx i) k in
      if (j < m)%N then \sum_(0 <= l < a) get res [:: k; l] * get C [:: l; j; z] else 0].
  exact: (H n).
elim=> [|m IH] Hm.
  exists (zeros R [:: N; b]) => //; split=> // [|k z _ _]; first exact: nwf_zeros.
  by rewrite get_zeros.
have [T ET [HT ST GT]] := IH (ltnW Hm).
rewrite iotaSr add0n foldM_rcons ET /= /f /tt_gather_inner (pick1E SC Hm) /=.
rewrite (matmul22 Sr (B := tab2 a b (fun x z => get C [:: x; m; z])) (n := b)) //= Eb.
eexists; first by []; split=> // [|k z Hk Hz]; first exact: nwf_tab.
rewrite get_tab /= ?Hk ?Hz // ltnS leq_eqVlt; case: eqP => [E|N0] /=.
  rewrite get_tab2 // E; apply: eq_big_nat => l /= Hl; by rewrite get_tab2.
exact: GT.
Qed.

Lemma ndata_col (A : arr) N : nwf A -> nshape A = [:: N; 1]%N ->
  ndata A = [seq get A [:: k; 0%N] | k <- iota 0 N].
Proof.
move=> HA SA; apply: (@eq_from_nth _ 0).
  by rewrite size_map size_iota (eqP HA) SA /= !muln1.
move=> k; rewrite (eqP HA) SA /= !muln1 => Hk.
rewrite (nth_map 0%N) ?size_iota // nth_iota // /get SA /=.
by rewrite !muln1 !addn0.
Qed.

(* all index rows have length N, there is one per mode, entries in range *)
Lemma tt_gather_fold todo done idx N r res r' :
  links 1 done r -> links r todo r' ->
  wf_inds [seq dim C 1 | C <- done ++ todo] idx N ->
  nwf res -> nshape res = [:: N; r] ->
  (forall k z, (k < N)%N -> (z < r)%N ->
     get res [:: k; z] = chain done (take (size done) (column idx k)) 0 z) ->
  exists2 T, foldM (tt_gather_step idx N) res (zip (iota (size done) (size todo)) todo) = Ok T &
  [/\ nwf T, nshape T = [:: N; r'] & forall k z, (k < N)%N -> (z < r')%N ->
    get T [:: k; z] = chain (done ++ todo) (column idx k) 0 z].
Proof.
elim: todo done r res => [|C todo IH] done r res Hl Ht Hw Hr Sr Gr.
  move: Ht => /= /eqP <-; exists res => //; split=> // k z Hk Hz.
  rewrite Gr // cats0 take_oversize // size_map.
  by case/and3P: Hw => /eqP ->; rewrite size_map cats0.
case/and3P: Ht => HC /eqP SC Ht /=.
have Hd : (size done < size idx)%N.
  by case/and3P: Hw => /eqP ->; rewrite size_map size_cat /= addnS ltnS leq_addr.
have [T ET [HT ST GT]] := gather_stepE Hd SC Sr; rewrite ET /=.
have [|||||T' ET' [H1 H2 H3]] := IH (rcons done C) (dim C 2) T _ Ht; last first.
- rewrite cat_rcons in H3; exists T' => //.
  by rewrite size_rcons in ET'.
- move=> k z Hk Hz; rewrite GT //; cbv zeta; rewrite size_rcons.
  have /and3P[/eqP Hsz Hrow Hin] := Hw.
  have Hink : inb [seq dim C 1 | C <- done ++ C :: todo] (column idx k).
    by apply: (allP Hin); rewrite mem_iota.
  have Hlt : (size done < size (column idx k))%N.
    by rewrite (inb_size Hink) size_map size_cat /= addnS ltnS leq_addr.
  rewrite (take_nth 0%N) // (chain_rcons _ Hl) //; last first.
    by rewrite size_take Hlt.
  have -> : nth 0%N (column idx k) (size done) = nth 0%N (nth [::] idx (size done)) k.
    by rewrite /column (nth_map [::]) // -(size_map (fun row : seq nat => nth 0%N row k)).
  have Hj : (nth 0%N (nth [::] idx (size done)) k < dim C 1)%N.
    have := inb_nth Hink (k := size done).
    rewrite size_map size_cat /= addnS ltnS leq_addr => /(_ isT).
    rewrite map_cat nth_cat size_map ltnn subnn /=.
    by rewrite /column (nth_map [::]) // -(size_map (fun row : seq nat => nth 0%N row k)).
  by rewrite Hj; apply: eq_big_nat => l /= Hl'; rewrite Gr.
- exact: ST.
- exact: HT.
- by rewrite cat_rcons.
- exact: links_rconsI Hl HC SC.
Qed.

Definition rows_at (idx : seq (seq nat)) N (f : seq nat -> R) : seq R :=
  [seq f (column idx k) | k <- iota 0 N].

Lemma tt_gatherE cs idx N : wf_tt cs -> wf_inds (tshape (TT cs)) idx N ->
  tt_gather cs idx = Ok (rows_at idx N (den (TT cs))).
Proof.
case: cs => [|C0 cs] // /andP[_] /= /and3P[HC0 /eqP SC0 Hl] Hw.
have /and3P[/eqP Hsz Hrow Hin] := Hw.
case: idx Hw Hsz Hrow Hin => [|i0 idx] // Hw Hsz Hrow Hin.
have Ei0 : size i0 = N by case/andP: Hrow => /eqP.
rewrite /tt_gather Ei0 Hrow.
have P1 : prods (behead (nshape C0)) = prods (nshape C0).
  by rewrite SC0 /= !muln1 mul1n.
have [c0 -> [Hc0 Sc0 Gc0]] := reshape_spec HC0 P1; rewrite /=.
rewrite SC0 /= in Sc0.
rewrite (take0E Sc0) /=; last first.
  apply/(all_nthP 0%N) => k; rewrite Ei0 => Hk.
  have /(allP Hin) : k \in iota 0 N by rewrite mem_iota.
  by case/andP.
set T := tab2 _ _ _.
have L1 : links 1 [:: C0] (dim C0 2) by rewrite /= HC0 {1}SC0 !eqxx.
have [|||T' ET' [H1 H2 H3]] := @tt_gather_fold cs [:: C0] (i0 :: idx) N (dim C0 2) T 1 L1 Hl Hw.
- exact: nwf_tab.
- by rewrite /= Ei0.
- move=> k z Hk Hz; rewrite get_tab2 ?Ei0 //.
  have -> : take (size [:: C0]) (column (i0 :: idx) k) = [:: nth 0%N i0 k] by rewrite /= take0.
  rewrite chain1 //.
  apply: Gc0; rewrite {1 2}SC0 /=; lia.
rewrite /= in ET' *; rewrite ET' /= (ndata_col H1 H2); congr Ok.
apply/eq_in_map => k; rewrite mem_iota => /andP[_ Hk]; exact: H3.
Qed.

(* CP *)
Lemma nmul_same (A B : arr) m n : nshape A = [:: m; n] -> nshape B = [:: m; n] ->
  nmul A B = Ok (tab2 m n (fun i j => get A [:: i; j] * get B [:: i; j])).
Proof.
move=> HA HB; rewrite /nmul elementwiseE ?HA ?HB //; congr Ok;
  by apply: tab_ext => x /inb2P[p [q [-> _ _]]].
Qed.

Lemma cp_gather_fold todo done (idx1 idx2 : seq (seq nat)) N r res :
  all (fun C => nwf C && (nshape C == [:: dim C 0; r])) todo ->
  size idx2 = size todo -> size idx1 = size done ->
  all (fun row => size row == N) idx2 ->
  all (fun p => all (fun j => (j < dim p.1 0)%N) p.2) (zip todo idx2) ->
  nwf res -> nshape res = [:: N; r] ->
  (forall k z, (k < N)%N -> (z < r)%N ->
     get res [:: k; z] = \prod_(p <- zip done (column idx1 k)) get p.1 [:: p.2; z]) ->
  exists2 T, foldM (fun r p => do c <- take_ax 0 p.2 p.1; nmul r c) res (zip todo idx2) = Ok T &
  [/\ nwf T, nshape T = [:: N; r] & forall k z, (k < N)%N -> (z < r)%N ->
    get T [:: k; z] = \prod_(p <- zip (done ++ todo) (column (idx1 ++ idx2) k)) get p.1 [:: p.2; z]].
Proof.
elim: todo done idx1 idx2 res => [|C todo IH] done idx1 [|row idx2] res //.
  by move=> _ _ _ _ _ Hr Sr Gr; exists res => //; rewrite !cats0.
move=> /= /andP[/andP[HC /eqP SC] Ht] [Hs] Hs1 /andP[/eqP Hrow Hrows] /andP[Hj Hjs] Hr Sr Gr.
rewrite (take0E SC) //= Hrow.
rewrite (nmul_same Sr (B := tab2 N r _) (n := r)) //=.
set T := tab2 _ _ _.
have [] := IH (rcons done C) (rcons idx1 row) idx2 T Ht Hs _ Hrows Hjs (nwf_tab _ _) erefl.
- by rewrite !size_rcons Hs1.
- move=> k z Hk Hz; rewrite get_tab2 // get_tab2 // Gr //.
  rewrite /column map_rcons -!cats1 zip_cat ?size_map ?Hs1 //.
  by rewrite big_cat /= big_seq1.
by move=> T' -> H; exists T' => //; rewrite !cat_rcons in H.
Qed.

Lemma cp_gatherE cs idx N : wf_cp cs -> wf_inds (tshape (CP cs)) idx N ->
  cp_gather cs idx = Ok (rows_at idx N (den (CP cs))).
Proof.
case: cs => [|C0 cs] // /andP[_] /= /andP[/andP[HC0 /eqP SC0] Hcs] Hw.
have /and3P[/eqP Hsz Hrow Hin] := Hw.
case: idx Hw Hsz Hrow Hin => [|i0 idx] // Hw Hsz Hrow Hin.
have Ei0 : size i0 = N by case/andP: Hrow => /eqP.
have Hr0 : all (fun j => (j < dim C0 0)%N) i0.
  apply/(all_nthP 0%N) => k; rewrite Ei0 => Hk.
  have /(allP Hin) : k \in iota 0 N by rewrite mem_iota.
  by case/andP.
have Hrs : all (fun p => all (fun j => (j < dim p.1 0)%N) p.2) (zip cs idx).
  have Hin' : all (fun k => inb [seq dim C 0 | C <- cs] (column idx k)) (iota 0 N).
    by apply/allP => k /(allP Hin) /= /andP[].
  move: Hrow => /= /andP[_].
  have: size idx = size cs by move: Hsz => /= [->]; rewrite size_map.
  elim: (cs) (idx) Hin' => [|C l IH] [|row rows] //= Hin' [Hs] /andP[/eqP Hr Hrs].
  rewrite IH //; last by apply/allP => k /(allP Hin') /andP[].
  rewrite andbT; apply/(all_nthP 0%N) => k; rewrite Hr => Hk.
  have /(allP Hin') : k \in iota 0 N by rewrite mem_iota.
  by case/andP.
rewrite /cp_gather /= (take0E SC0 Hr0) /= Ei0; set T := tab2 _ _ _.
have [] := @cp_gather_fold cs [:: C0] [:: i0] idx N (dim C0 1) T Hcs _ erefl _ Hrs (nwf_tab _ _) erefl.
- by move: Hsz => /= [->]; rewrite size_map.
- by move: Hrow => /= /andP[].
- by move=> k z Hk Hz; rewrite get_tab2 //= big_seq1.
move=> T' -> [H1 H2 H3] /=; congr Ok.
rewrite /sum_last /ndim H2 /=.
rewrite /rows_at muln1; apply/eq_in_map => k; rewrite mem_iota => /andP[_ Hk].
rewrite sumrE divn1; apply: eq_big_nat => r /= Hr.
by rewrite H3.
Qed.

(* Sparse *)
Lemma dict_getE (keys : seq nat) (vals : seq R) k : uniq keys -> size keys = size vals ->
  dict_get (rev (zip keys vals)) k = \sum_(0 <= j < size vals) (nth 0%N keys j == k)%:R * nth 0 vals j.
Proof.
elim/last_ind: keys vals => [|keys key IH] vals; case/lastP: vals => [|vals v] //.
- by rewrite big_geq.
- by rewrite size_rcons.
- by rewrite size_rcons.
rewrite !size_rcons rcons_uniq => /andP[Hn Hu] [Hs].
rewrite big_nat_recr //= !nth_rcons Hs ltnn eqxx.
have -> : rev (zip (rcons keys key) (rcons vals v)) = (key, v) :: rev (zip keys vals).
  by rewrite -!cats1 zip_cat // rev_cat.
have S : \sum_(0 <= i < size vals)
   (nth 0%N (rcons keys key) i == k)%:R * nth 0 (rcons vals v) i =
   \sum_(0 <= j < size vals) (nth 0%N keys j == k)%:R * nth 0 vals j.
  by apply: eq_big_nat => i /= Hi; rewrite !nth_rcons Hs Hi.
rewrite S -IH // /=; case: eqP => [E|_]; last by rewrite mul0r addr0.
rewrite mul1r IH // big1_seq ?add0r // => j /=; rewrite mem_index_iota => /andP[_ Hj].
case: eqP => [E'|]; last by rewrite mul0r.
by case/negP: Hn; rewrite E -E' mem_nth // Hs.
Qed.

Lemma sparse_gatherE s inds (vals : seq R) idx N :
  wf (Sparse s inds vals) -> wf_inds s idx N -> (0 < size s)%N ->
  sparse_gather s inds vals idx = Ok (rows_at idx N (den (Sparse s inds vals))).
Proof.
case/andP=> wi Hu wI Hpos; have /and3P[_ _ Hin] := wi; have /and3P[/eqP Hs Hrow Hin'] := wI.
have EN : size (head [::] idx) = N.
  by case: idx Hs Hrow {Hin' wI} => [|row idx] //=; [move=> E; rewrite -E in Hpos|move=> _ /andP[/eqP]].
rewrite /sparse_gather EN /ravel_multi.
have -> : [&& size idx == size s, all (fun row => size row == N) idx &
  all (fun k => inb s (coord idx k)) (iota 0 N)] by exact: wI.
rewrite /= /sparse_dict /ravel_multi.
have -> : [&& size inds == size s, all (fun row => size row == size vals) inds &
  all (fun k => inb s (coord inds k)) (iota 0 (size vals))] by exact: wi.
rewrite /= -map_comp; congr Ok; apply/eq_in_map => k Hk /=.
have Hik := allP Hin' _ Hk.
rewrite dict_getE ?size_map ?size_iota //; last first.
  rewrite map_inj_in_uniq ?iota_uniq // => p q Hp Hq E.
  have E' := ravel_inj (allP Hin _ Hp) (allP Hin _ Hq) E.
  move: Hp Hq; rewrite !mem_iota => /andP[_ Hp] /andP[_ Hq].
  have G m : (m < size vals)%N -> column inds m = nth [::] [seq column inds k | k <- iota 0 (size vals)] m.
    by move=> Hm; rewrite (nth_map 0%N) ?size_iota // nth_iota.
  have Hu' : uniq [seq column inds k | k <- iota 0 (size vals)] := Hu.
  apply/eqP; rewrite -(nth_uniq [::] _ _ Hu') ?size_map ?size_iota // -!G //.
  exact/eqP.
apply: eq_big_nat => j /= Hj; congr (_ * _); congr ((nat_of_bool _)%:R).
rewrite (nth_map 0%N) ?size_iota // nth_iota // add0n.
have Hij : inb s (column inds j) by apply: (allP Hin); rewrite mem_iota.
by apply/eqP/eqP => [/(ravel_inj Hij Hik)|E] //; rewrite !coordE E.
Qed.

(* C11 *)
Lemma gatherE X idx N : wf X -> wf_inds (tshape X) idx N -> (0 < size (tshape X))%N ->
  match X with TT _ | CP _ | Sparse _ _ _ => true | _ => false end ->
  gather X idx = Ok (rows_at idx N (den X)).
Proof.
case: X => [a|s inds vals|cs|cs|fs c|s Xs] // HX Hw Hp _.
- exact: sparse_gatherE.
- exact: tt_gatherE.
- exact: cp_gatherE.
Qed.

(* C16: split -------------------------------------------------------- *)
Lemma split_sliceE (T : Type) nnz n i (l : seq T) : (0 < n)%N -> size l = nnz -> (i < n)%N ->
  split_slice nnz n i l =
  drop (i * (nnz %/ n))%N (take (if (i.+1 == n) then nnz else (i.+1 * (nnz %/ n))%N) l).
Proof.
move=> Hn Hl Hi; rewrite /split_slice.
have Hle : (n * (nnz %/ n) <= nnz)%N by rewrite mulnC leq_trunc_div.
have Hib : (i * (nnz %/ n) <= nnz)%N by apply: leq_trans Hle; rewrite leq_mul2r ltnW // orbT.
case: eqP => E.
  have -> : (i < n.-1)%N = false by lia.
  by rewrite -Hl take_size take_oversize // size_drop; lia.
have -> : (i < n.-1)%N by lia.
rewrite -{2}(@subnK (i * (nnz %/ n)) (i.+1 * (nnz %/ n))) ?leq_mul2r ?leqnSn ?orbT //.
by rewrite take_drop.
Qed.

Lemma flatten_split (T : Type) nnz n (l : seq T) : (0 < n)%N -> size l = nnz ->
  flatten [seq split_slice nnz n i l | i <- iota 0 n] = l.
Proof.
move=> Hn Hl.
suff H m : (m < n)%N ->
   flatten [seq split_slice nnz n i l | i <- iota 0 m] = take (m * (nnz %/ n))%N l.
  case: n Hn H => // n _ H; rewrite iotaSr map_rcons flatten_rcons H // add0n.
  rewrite split_sliceE // eqxx -Hl take_size.
  exact: cat_take_drop.
elim: m => [|m IH] Hm; first by rewrite take0.
rewrite iotaSr map_rcons flatten_rcons IH; last lia.
rewrite add0n split_sliceE //; last lia.
have -> : (m.+1 == n) = false by lia.
rewrite -{1}(@take_take _ (m * (nnz %/ n))%N (m.+1 * (nnz %/ n))%N) ?leq_mul2r ?leqnSn ?orbT //.
exact: cat_take_drop.
Qed.


Definition pairs (inds : seq (seq nat)) (vals : seq R) : seq (seq nat * R) :=
  [seq (column inds k, nth 0 vals k) | k <- iota 0 (size vals)].

Lemma den_pairs s inds (vals : seq R) i :
  den (Sparse s inds vals) i = \sum_(p <- pairs inds vals) (p.1 == i)%:R * p.2.
Proof. by rewrite /= /pairs big_map /index_iota subn0. Qed.

Lemma pairs_drop a inds (vals : seq R) :
  pairs [seq drop a row | row <- inds] (drop a vals) = drop a (pairs inds vals).
Proof.
rewrite /pairs -map_drop drop_iota add0n size_drop.
have -> : iota a (size vals - a) = [seq (a + k)%N | k <- iota 0 (size vals - a)].
  by rewrite -{1}(addn0 a) iotaDl.
rewrite -map_comp; apply: eq_map => k /=; rewrite nth_drop; congr (_, _).
by rewrite /column -map_comp; apply: eq_map => row /=; rewrite nth_drop.
Qed.

Lemma pairs_take b inds (vals : seq R) :
  pairs [seq take b row | row <- inds] (take b vals) = take b (pairs inds vals).
Proof.
rewrite /pairs -map_take take_iota size_take_min; apply/eq_in_map => k.
rewrite mem_iota add0n /= => Hk; rewrite nth_take; last lia; congr (_, _).
by rewrite /column -map_comp; apply: eq_map => row /=; rewrite nth_take //; lia.
Qed.

Lemma size_pairs inds (vals : seq R) : size (pairs inds vals) = size vals.
Proof. by rewrite size_map size_iota. Qed.

Lemma pairs_slice n i inds (vals : seq R) : (i < n)%N ->
  all (fun row => size row == size vals) inds ->
  pairs [seq split_slice (size vals) n i row | row <- inds] (split_slice (size vals) n i vals)
  = split_slice (size vals) n i (pairs inds vals).
Proof.
move=> Hi Hr; have Hn : (0 < n)%N by lia.
rewrite !split_sliceE ?size_pairs //; set lo := (i * _)%N; set hi := (if _ then _ else _).
rewrite -pairs_take -pairs_drop -map_comp; congr pairs.
by elim: (inds) Hr => [|row rows IH] //= /andP[/eqP Hr /IH ->]; rewrite split_sliceE.
Qed.

Lemma wf_pairs nr s inds (vals : seq R) : wf_gen nr (Sparse s inds vals) =
  [&& size inds == size s, all (fun row => size row == size vals) inds,
     all (fun p => inb s p.1) (pairs inds vals) & nr ==> uniq (unzip1 (pairs inds vals))].
Proof.
rewrite /= /wf_inds /norep /pairs all_map -!andbA /unzip1 -map_comp.
by congr [&& _, _, _ & _].
Qed.

(* C16 *)
Lemma sparse_splitE s inds (vals : seq R) n : wf (Sparse s inds vals) -> (0 < n)%N ->
  exists2 Y, sparse_split s inds vals n = Ok Y &
  [/\ wf Y, same_tensor Y (Sparse s inds vals) &
   exists pieces : seq (seq (seq nat) * seq R),
    [/\ Y = TSum s [seq Sparse s p.1 p.2 | p <- pieces], size pieces = n,
        flatten [seq p.2 | p <- pieces] = vals &
        forall r, (r < size inds)%N ->
          flatten [seq nth [::] p.1 r | p <- pieces] = nth [::] inds r]].
Proof.
move=> Hw Hn; have := Hw; rewrite /wf wf_pairs => /and4P[Hs Hr Hin Hu].
rewrite /sparse_split; have -> : (n == 0%N) = false by lia.
set pieces := [seq ([seq split_slice (size vals) n i row | row <- inds],
                    split_slice (size vals) n i vals) | i <- iota 0 n].
have -> : [seq Sparse s [seq split_slice (size vals) n i row | row <- inds]
             (split_slice (size vals) n i vals) | i <- iota 0 n] =
   [seq Sparse s p.1 p.2 | p <- pieces] by rewrite -map_comp.
have Sp : size pieces = n by rewrite size_map size_iota.
have Fv : flatten [seq p.2 | p <- pieces] = vals.
  by rewrite -map_comp flatten_split.
have Fr r : (r < size inds)%N -> flatten [seq nth [::] p.1 r | p <- pieces] = nth [::] inds r.
  move=> Hr'; rewrite -map_comp.
  have Er : size (nth [::] inds r) = size vals by apply/eqP; apply: (allP Hr); rewrite mem_nth.
  rewrite -[RHS](flatten_split Hn Er); congr flatten; apply: eq_map => i /=.
  by rewrite (nth_map [::]).
have Fp : flatten [seq pairs p.1 p.2 | p <- pieces] = pairs inds vals.
  rewrite -[RHS](flatten_split Hn (size_pairs inds vals)) -map_comp; congr flatten.
  by apply/eq_in_map => i; rewrite mem_iota => /andP[_ Hi] /=; rewrite pairs_slice.
have Ep : exists p0 ps, pieces = p0 :: ps by case: (pieces) Sp Hn => [|p0 ps] <- // _; exists p0, ps.
have Wp p : p \in pieces -> wf (Sparse s p.1 p.2).
  case/mapP=> i; rewrite mem_iota => /andP[_ Hi] -> {p}; rewrite /wf wf_pairs /=.
  rewrite pairs_slice // size_map Hs /=; apply/and3P; split.
  - rewrite all_map; apply/allP => row /(allP Hr) /= /eqP Er.
    by rewrite !split_sliceE // !size_drop !size_take_min Er.
  - rewrite split_sliceE ?size_pairs //; apply/allP => q /mem_drop /mem_take; exact: (allP Hin).
  by rewrite split_sliceE ?size_pairs // /unzip1 map_drop map_take drop_uniq // take_uniq.
exists (TSum s [seq Sparse s p.1 p.2 | p <- pieces]).
  by have [p0 [ps ->]] := Ep.
split.
- rewrite /wf wf_sumE; apply/andP; split; first by have [p0 [ps ->]] := Ep.
  by rewrite all_map; apply/allP => p /Wp; rewrite /= eqxx andbT.
- split=> // i _; rewrite den_sum big_map den_pairs -Fp big_flatten big_map.
  by apply: eq_bigr => p _; rewrite den_pairs.
by exists pieces.
Qed.

(* C50: partial_dense --------------------------------------------------- *)
Lemma flat_lrE (A : arr) s r : nwf A -> nshape A = rcons s r -> (0 < r)%N ->
  exists2 B, flat_lr A = Ok B & [/\ nwf B, nshape B = [:: prods s; r] &
    forall i z, inb s i -> (z < r)%N -> get B [:: ravel s i; z] = get A (rcons i z)].
Proof.
move=> HA SA Hr; rewrite /flat_lr /reshape_infer SA last_rcons /= muln1 mul1n.
have -> : (r == 0%N) = false by lia.
rewrite prods_rcons dvdn_mull // mulnK // /=.
have P : prods [:: prods s; r] = prods (nshape A) by rewrite SA prods_rcons /= muln1.
have [B EB [HB SB GB]] := reshape_spec HA P; exists B => //; split=> // i z Hi Hz.
by apply: GB; rewrite SA ravel_rcons ?(inb_size Hi) //= !muln1 addn0.
Qed.

Lemma flat_rlE (A : arr) s r : nwf A -> nshape A = r :: s -> (0 < r)%N ->
  exists2 B, flat_rl A = Ok B & [/\ nwf B, nshape B = [:: r; prods s] &
    forall i z, inb s i -> (z < r)%N -> get B [:: z; ravel s i] = get A (z :: i)].
Proof.
move=> HA SA Hr; rewrite /flat_rl /reshape_infer /dim SA /= !muln1.
have -> : (r == 0%N) = false by lia.
rewrite -/(prods s) dvdn_mulr // mulKn //.
have P : prods [:: r; prods s] = prods (nshape A) by rewrite SA /= muln1.
have [B EB [HB SB GB]] := reshape_spec HA P; exists B => //; split=> // i z Hi Hz.
by apply: GB; rewrite SA /= !muln1 addn0.
Qed.

Definition tsh (cs : seq arr) : seq nat := [seq dim C 1 | C <- cs].

(* [P] is the matrix of left (right) partial products of the cores [pre] ([suf]) *)
Definition left_iface (pre : seq arr) (P : arr) : Prop := exists r,
  [/\ links 1 pre r, nwf P, nshape P = [:: prods (tsh pre); r] &
   forall i z, inb (tsh pre) i -> (z < r)%N ->
     get P [:: ravel (tsh pre) i; z] = chain pre i 0 z].
Definition right_iface (suf : seq arr) (P : arr) : Prop := exists r,
  [/\ links r suf 1, nwf P, nshape P = [:: r; prods (tsh suf)] &
   forall i z, inb (tsh suf) i -> (z < r)%N ->
     get P [:: z; ravel (tsh suf) i] = chain suf i z 0].

Lemma partial_lr_step done C r (P : arr) : links 1 done r -> nwf C -> nshape C = [:: r; dim C 1; dim C 2] ->
  (0 < dim C 2)%N ->
  nwf P -> nshape P = [:: prods (tsh done); r] ->
  (forall i z, inb (tsh done) i -> (z < r)%N -> get P [:: ravel (tsh done) i; z] = chain done i 0 z) ->
  exists2 Q, (do c <- einsum "ij,jkl->ikl" [:: P; C]; flat_lr c) = Ok Q &
  [/\ nwf Q, nshape Q = [:: prods (tsh (rcons done C)); dim C 2] &
   forall i z, inb (tsh (rcons done C)) i -> (z < dim C 2)%N ->
     get Q [:: ravel (tsh (rcons done C)) i; z] = chain (rcons done C) i 0 z].
Proof.
move=> Hl HC SC H2 HP SP GP; rewrite (es_ij_jkl SP SC) /=; set T := tab3 _ _ _ _.
have [Q EQ [HQ SQ GQ]] := @flat_lrE T [:: prods (tsh done); dim C 1] (dim C 2) (nwf_tab _ _) erefl H2.
exists Q => //; rewrite /tsh map_rcons prods_rcons.
split=> //; first by rewrite SQ /= muln1.
move=> x z /inb_rconsP[i [k [-> Hi Hk]]] Hz.
rewrite ravel_rcons ?(inb_size Hi) //.
have -> : (ravel (tsh done) i * dim C 1 + k)%N =
   ravel [:: prods (tsh done); dim C 1] [:: ravel (tsh done) i; k] by rewrite /= !muln1 addn0.
rewrite GQ /= ?ravel_lt ?Hk // get_tab3 ?ravel_lt //.
rewrite (chain_rcons _ Hl) ?(inb_size Hi) ?size_map //.
by apply: eq_big_nat => l /= Hl'; rewrite GP.
Qed.

Lemma partial_rl_step suf C r (P : arr) : links r suf 1 -> nwf C ->
  nshape C = [:: dim C 0; dim C 1; r] -> (0 < dim C 0)%N ->
  nwf P -> nshape P = [:: r; prods (tsh suf)] ->
  (forall i z, inb (tsh suf) i -> (z < r)%N -> get P [:: z; ravel (tsh suf) i] = chain suf i z 0) ->
  exists2 Q, (do c <- einsum "ijk,kl->ijl" [:: C; P]; flat_rl c) = Ok Q &
  [/\ nwf Q, nshape Q = [:: dim C 0; prods (tsh (C :: suf))] &
   forall i z, inb (tsh (C :: suf)) i -> (z < dim C 0)%N ->
     get Q [:: z; ravel (tsh (C :: suf)) i] = chain (C :: suf) i z 0].
Proof.
move=> Hl HC SC H2 HP SP GP; rewrite (es_ijk_kl SC SP) /=; set T := tab3 _ _ _ _.
have [Q EQ [HQ SQ GQ]] := @flat_rlE T [:: dim C 1; prods (tsh suf)] (dim C 0) (nwf_tab _ _) erefl H2.
exists Q => //; split=> //; first by rewrite SQ /= muln1.
move=> [|k i] z //= /andP[Hk Hi] Hz.
have := GQ [:: k; ravel (tsh suf) i] z; rewrite /= !muln1 addn0 Hk ravel_lt // => -> //.
rewrite get_tab3 ?ravel_lt //.
have -> : dim C 2 = r by rewrite /dim SC.
by apply: eq_big_nat => l /= Hl'; rewrite GP.
Qed.

Lemma partial_lr_fold p0 cs done todo rest ps :
  cs = done ++ todo ++ rest -> links 1 cs 1 -> all (fun C => 0 < dim C 2)%N cs ->
  size ps = size done -> (0 < size ps)%N ->
  (forall k, (k < size ps)%N -> left_iface (take k.+1 cs) (nth p0 ps k)) ->
  exists2 qs, foldM (fun ps C =>
          do c <- einsum "ij,jkl->ikl" [:: last p0 ps; C];
          do c' <- flat_lr c;
          Ok (rcons ps c')) ps todo = Ok qs &
   size qs = (size done + size todo)%N /\
   (forall k, (k < size qs)%N -> left_iface (take k.+1 cs) (nth p0 qs k)).
Proof.
elim: todo done ps => [|C todo IH] done ps Ecs Hl Hpos Hs Hs0 Hps.
  by exists ps => //; rewrite addn0; split.
have Hlast : left_iface done (last p0 ps).
  have := Hps (size ps).-1; rewrite prednK // leqnn => /(_ isT).
  by rewrite -nth_last Hs Ecs take_size_cat.
case: Hlast => r [L1 HP SP GP].
have [r' L1' L2] : exists2 r', links 1 done r' & links r' (C :: todo ++ rest) 1.
  by apply: links_cat; rewrite -cat_cons -Ecs.
have Er : r' = r.
  have := L1; have := L1'; clear; elim: (done) 1%N => [|D l IHl] a /=.
    by move=> /eqP <- /eqP <-.
  by case/and3P=> _ _ H1 /and3P[_ _ H2]; apply: IHl H1 H2.
subst r'; case/and3P: L2 => HC /eqP SC L3.
have HC2 : (0 < dim C 2)%N.
  by apply: (allP Hpos); rewrite Ecs mem_cat inE eqxx orbT.
have [Q EQ [HQ SQ GQ]] := partial_lr_step L1 HC SC HC2 HP SP GP.
move: EQ; rewrite [foldM _ _ _]/=; case: einsum => //= c -> /=.
have Ecs' : cs = rcons done C ++ todo ++ rest by rewrite cat_rcons.
have Hsz : size (rcons ps Q) = size (rcons done C) by rewrite !size_rcons Hs.
have Hnew k : (k < size (rcons ps Q))%N -> left_iface (take k.+1 cs) (nth p0 (rcons ps Q) k).
  rewrite size_rcons ltnS leq_eqVlt nth_rcons => /orP[/eqP ->|Hk]; last by rewrite Hk; apply: Hps.
  rewrite ltnn eqxx Hs Ecs' -(size_rcons done C) take_size_cat //.
  by exists (dim C 2); split=> //; apply: links_rconsI L1 HC SC.
have [|qs -> [E1 E2]] := IH _ _ Ecs' Hl Hpos Hsz _ Hnew; first by rewrite size_rcons.
by exists qs => //; split=> //; rewrite E1 size_rcons addSnnS.
Qed.

(* C50, left to right *)
Lemma partial_dense_lrE cs : wf_tt cs -> all (fun C => 0 < dim C 2)%N cs ->
  exists2 ps, partial_dense_lr cs = Ok ps &
   size ps = maxn 1 (size cs).-1 /\
   forall k, (k < size ps)%N -> left_iface (take k.+1 cs) (nth (Nd [::] [::]) ps k).
Proof.
case: cs => [|C0 cs] // /andP[_ Hl] Hpos; have := Hl; rewrite /= => /and3P[HC0 /eqP SC0 Hl'].
have H2 : (0 < dim C0 2)%N by case/andP: Hpos.
rewrite /partial_dense_lr.
have [P EP [HP SP GP]] := @flat_lrE C0 [:: 1; dim C0 1]%N (dim C0 2) HC0 SC0 H2.
rewrite EP /=.
have L1 : links 1 [:: C0] (dim C0 2) by rewrite /= HC0 {1}SC0 !eqxx.
have IP : left_iface [:: C0] P.
  exists (dim C0 2); split=> //; first by rewrite SP /= mul1n.
  move=> i z /inb1P[k -> Hk] Hz; rewrite chain1 //.
  have := GP [:: 0%N; k] z; rewrite /= !muln1 !addn0 Hk => -> //.
have [rest Erest] : exists rest, C0 :: cs = [:: C0] ++ behead (take (size cs) (C0 :: cs)) ++ rest.
  case/lastP: (cs) => [|l x]; first by exists [::].
  by exists [:: x]; rewrite size_rcons /= -cats1 take_size_cat.
have [|qs -> [E1 E2]] := @partial_lr_fold P (C0 :: cs) [:: C0] _ rest [:: P] Erest Hl Hpos erefl erefl.
  by case=> [|k] // _; rewrite /= take0.
exists qs => //; split.
  rewrite E1 /= size_behead size_take /=; case: (size cs) => // n; rewrite ltnSn /=; lia.
by move=> k Hk; rewrite (set_nth_default P) //; apply: E2.
Qed.

Lemma partial_rl_fold p0 cs done todo rest ps :
  cs = rest ++ rev todo ++ done -> links 1 cs 1 -> all (fun C => 0 < dim C 0)%N cs ->
  size ps = size done -> (0 < size ps)%N ->
  (forall k, (k < size ps)%N -> right_iface (drop (size cs - k.+1) cs) (nth p0 ps k)) ->
  exists2 qs, foldM (fun ps C =>
          do c <- einsum "ijk,kl->ijl" [:: C; last p0 ps];
          do c' <- flat_rl c;
          Ok (rcons ps c')) ps todo = Ok qs &
   size qs = (size done + size todo)%N /\
   (forall k, (k < size qs)%N -> right_iface (drop (size cs - k.+1) cs) (nth p0 qs k)).
Proof.
elim: todo done ps => [|C todo IH] done ps Ecs Hl Hpos Hs Hs0 Hps.
  by exists ps => //; rewrite addn0; split.
have Ecs' : cs = rest ++ rev todo ++ (C :: done) by rewrite Ecs rev_cons cat_rcons.
have Edrop : drop (size cs - size done) cs = done.
  by rewrite Ecs catA size_cat addnK drop_size_cat.
have Edrop' : drop (size cs - (size done).+1) cs = C :: done.
  by rewrite Ecs' catA size_cat /= addnK drop_size_cat.
have Hlast : right_iface done (last p0 ps).
  have := Hps (size ps).-1; rewrite prednK // leqnn => /(_ isT).
  by rewrite -nth_last Hs Edrop.
case: Hlast => r [L1 HP SP GP].
have [r' _] : exists2 r', links 1 (rest ++ rev todo) r' & links r' (C :: done) 1.
  by apply: links_cat; rewrite -catA -Ecs'.
case/and3P=> HC /eqP SC L3.
have HC2 : (0 < dim C 0)%N.
  by apply: (allP Hpos); rewrite Ecs' !mem_cat inE eqxx !orbT.
have SC' : nshape C = [:: dim C 0; dim C 1; dim C 2] by rewrite {1}SC {3}/dim SC.
have Er : dim C 2 = r.
  case: (done) L1 L3 GP SP => [|D l] /=.
    by move=> /eqP -> /eqP ->.
  by case/and3P=> _ /eqP E _ /and3P[_ /eqP E' _] _ _; move: E'; rewrite E => -[].
rewrite Er in SC'.
have [Q EQ [HQ SQ GQ]] := partial_rl_step L1 HC SC' HC2 HP SP GP.
move: EQ; rewrite [foldM _ _ _]/=; case: einsum => //= c -> /=.
have Hsz : size (rcons ps Q) = size (C :: done) by rewrite size_rcons Hs.
have Hnew k : (k < size (rcons ps Q))%N ->
    right_iface (drop (size cs - k.+1) cs) (nth p0 (rcons ps Q) k).
  rewrite size_rcons ltnS leq_eqVlt nth_rcons => /orP[/eqP ->|Hk]; last by rewrite Hk; apply: Hps.
  rewrite ltnn eqxx Hs Edrop'.
  exists (dim C 0); split=> //.
  apply/and3P; split=> //; first by apply/eqP; rewrite Er.
have [|qs -> [E1 E2]] := IH _ _ Ecs' Hl Hpos Hsz _ Hnew; first by rewrite size_rcons.
by exists qs => //; split=> //; rewrite E1 /= addSnnS.
Qed.

(* C50, right to left *)
Lemma partial_dense_rlE cs : wf_tt cs -> all (fun C => 0 < dim C 0)%N cs ->
  exists2 ps, partial_dense_rl cs = Ok ps &
   size ps = maxn 1 (size cs).-1 /\
   forall k, (k < size ps)%N -> right_iface (drop (size cs - k.+1) cs) (nth (Nd [::] [::]) ps k).
Proof.
case/lastP: cs => [|cs C0] // /andP[_ Hl] Hpos.
have [r [Hl' HC0 SC0]] := links_rcons Hl.
have H2 : (0 < dim C0 0)%N by move: Hpos; rewrite all_rcons => /andP[].
have Er : dim C0 0 = r by rewrite /dim SC0.
have D2 : dim C0 2 = 1%N by rewrite /dim SC0.
rewrite Er in H2.
rewrite /partial_dense_rl rev_rcons.
have [P EP [HP SP GP]] := @flat_rlE C0 [:: dim C0 1; 1]%N r HC0 SC0 H2.
rewrite EP /=.
have IP : right_iface [:: C0] P.
  exists r; split.
  - by apply/and3P; split=> //=; rewrite ?D2 // SC0 /dim SC0.
  - by [].
  - by rewrite SP /= !muln1.
  move=> i z /inb1P[k -> Hk] Hz; rewrite chain1 ?D2 //.
  have := GP [:: k; 0%N] z; rewrite /= !muln1 !addn0 Hk => -> //.
set todo := behead _.
have [rest Erest] : exists rest, rcons cs C0 = rest ++ rev todo ++ [:: C0].
  rewrite /todo size_rcons /=; case: (cs) => [|x l]; first by exists [::].
  exists [:: x]; rewrite /= rev_cons /=.
  have -> : take (size l) (rcons (rev l) x) = rev l.
    by rewrite -cats1 take_size_cat // size_rev.
  by rewrite revK cats1.
have [|qs -> [E1 E2]] := @partial_rl_fold P (rcons cs C0) [:: C0] todo rest [:: P] Erest Hl Hpos erefl erefl.
  case=> [|k] // _; rewrite size_rcons subn1 /= -cats1 drop_size_cat //.
exists qs => //; split; last first.
  by move=> k Hk; rewrite (set_nth_default P) //; apply: E2.
rewrite E1 /todo size_behead size_take size_rcons /= size_rev.
case: (size cs) => // n; rewrite ltnSn /=; lia.
Qed.

(* C51: TensorTrain.zero ---------------------------------------------- *)
Lemma links_zero (rk sh : seq nat) a : size sh = (size rk).+1 ->
  let cs := [seq zeros R [:: p.1.1; p.1.2; p.2] | p <- zip (zip (a :: rk) sh) (rcons rk 1%N)] in
  [/\ links a cs 1, tsh cs = sh, [seq dim C 0 | C <- cs] = a :: rk & forall i x, size i = size sh -> chain cs i x 0 = 0].
Proof.
elim: rk a sh => [|r rk IH] a [|n [|m sh]] //=.
  move=> _; split=> //; first by rewrite nwf_tab /= eqxx.
  case=> [|k i] x //= _; rewrite big1 // => l _; by rewrite get_zeros mul0r.
move=> [Hs]; have [] := IH r (m :: sh); first by rewrite /= Hs.
move=> /= L T K Ch; split.
- by rewrite nwf_tab /= eqxx L.
- by rewrite T.
- by rewrite K.
case=> [|k i] x //= [Hi]; rewrite big1 // => l _; by rewrite get_zeros mul0r.
Qed.

Lemma tt_zeroE shape rank rk : process_tt_rank rank shape false = Ok rk ->
  exists2 cs, tt_zero R shape rank = Ok cs &
  [/\ wf_tt cs, tshape (TT cs) = shape, tt_rank cs = rk & forall i, inb shape i -> den (TT cs) i = 0].
Proof.
move=> E; rewrite /tt_zero E /=; eexists; first by [].
have Hs : size shape = (size rk).+1.
  move: E; rewrite /process_tt_rank; case: ifP => // /negbT.
  by rewrite negb_or negbK => /andP[H0 /eqP H1] [<-]; rewrite H1 prednK // lt0n.
have [L T K Ch] := links_zero 1 Hs.
split=> //; [|by rewrite /tt_rank -behead_map K|].
  by apply/andP; split=> //; case: (shape) Hs => // ? ?; case: (rk).
by move=> i Hi; apply: Ch; rewrite (inb_size Hi).
Qed.
End Gather.
