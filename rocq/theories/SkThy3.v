(* Psi of the dense, Tucker and sparse formats, and the summary for every leaf format. *)
From Coq Require Import String Ascii NArith.
From mathcomp Require Import all_ssreflect all_algebra.
From mathcomp Require Import zify.
From Verif Require Import Py Nd NdThy Ein Utils Tensor Hash Sketch Spec ChainThy TensorThy TensorThy2 GatherThy MatThy SkSpec SkThy1 SkThy2.
Set Implicit Arguments. Unset Strict Implicit. Unset Printing Implicit Defensive.
Import GRing.Theory.
Local Open Scope ring_scope.

Section Raw.
Variable R : comRingType.
Notation arr := (nd R).
Notation tensor := (tensor R).
Implicit Types (X : tensor) (cs : seq arr) (n p q k : nat) (A B : arr) (L Rt : option arr).

Lemma matricize_true A m : (m < ndim A)%N -> matricize A [:: m] true = matricize A [:: m] false.
Proof.
by move=> h; rewrite /matricize /transpose; case: ifP => // _; rewrite /= !take0 /= muln1.
Qed.

Lemma psi_dense_raw (a : arr) mu r1 r2 L Rt : nwf a -> (mu < ndim a)%N -> (1 < ndim a)%N ->
  lmat (Dense a) L mu r1 -> rmat (Dense a) Rt mu.+1 r2 ->
  psi_dense a mu L Rt = Ok (tab3 r1 (nth 0%N (nshape a) mu) r2 (raw_psi (Dense a) mu L Rt)).
Proof.
move=> w ml sz hL hR; rewrite /raw_psi /psi_dense.
case: L Rt hL hR => [L|] [Rt|] /=.
- case/andP=> _ /andP[_ /eqP sL] /andP[ml' /andP[_ /eqP sR]] /=.
  rewrite (@matricize_lead _ a mu.+1 false) //= /dim.
  rewrite /ndim in ml; have st : size (take mu.+1 (nshape a)) = mu.+1 by rewrite size_takel.
  rewrite take_cat st ltnSn take_take // nth_cat st ltnSn nth_take // nth_cat st ltnn subnn /=.
  rewrite reshapeE /=; last first.
    by rewrite muln1 prods_cat /= muln1 (take_nth 0%N) // prods_rcons mulnA.
  rewrite (@es_ij_jkl_ml R L _ Rt _ _ _ _ _ sL (erefl : nshape (Nd [:: _; _; _] (ndata a)) = _) sR).
  congr Ok; apply: tab3_ext => x y z hx hy hz.
  apply: eq_big_nat => p /andP[_ hp]; apply: eq_big_nat => q /andP[_ hq].
  by rewrite (@get_split3 _ a mu) // /gv /= mulrA.
- case/andP=> _ /andP[_ /eqP sL] /andP[/eqP em /eqP ->] /=; rewrite /= in sL em.
  have em' : (ndim a).-1 = mu by rewrite /ndim -em.
  rewrite em' matricize_true //; have [B -> [wB sB gB]] := matricize_mode w ml; rewrite [LHS]/=.
  have d0 : drop mu.+1 (nshape a) = [::] by rewrite em drop_size.
  have ed : del mu (nshape a) = take mu (nshape a) by rewrite /del d0 cats0.
  rewrite ed in sB gB.
  rewrite (@matmul22 R L _ r1 (prods (take mu (nshape a))) (dim a mu)) ?(nshape_tr sB) // [LHS]/= resh_r.
  congr Ok; apply: tab3_ext => x y z hx hy hz; rewrite d0 [prods [::]]/=.
  apply: eq_big_nat => p /andP[_ hp]; rewrite sum1 mulr1 /gv /= (get_tr sB) //; congr (_ * _).
  rewrite -[in LHS](ravelK hp) gB /= ?hy ?inb_unravel // /ins ?cats1.
  have su : size (unravel (take mu (nshape a)) p) = mu.
    by rewrite (inb_size (inb_unravel hp)) size_takel // ltnW.
  by rewrite take_oversize ?su // drop_oversize ?su // cats1.
- case/andP=> /eqP m0 /eqP -> /andP[_ /andP[_ /eqP sR]]; rewrite m0 /= in sR ml *.
  rewrite (@matricize_lead _ a 1 true) //= (@matmul22 R _ _ (prods (take 1 (nshape a))) (prods (drop 1 (nshape a))) r2) ?(nshape_tr sR) //.
  rewrite [LHS]/= resh_l; have -> : prods (take 1 (nshape a)) = nth 0%N (nshape a) 0.
    by move: ml; rewrite /ndim; case: (nshape a) => //= x s _; rewrite take0 /= muln1.
  congr Ok; apply: tab3_ext => x y z hx hy hz; rewrite take0 sum1.
  apply: eq_big_nat => q /andP[_ hq]; rewrite mul1r (get_tr sR) // /gv /=; congr (_ * _).
  have := @get_split3 _ a 0 0 y q ml; rewrite take0 => <- //.
- by case/andP=> /eqP-> _ /andP[/eqP e _]; move: sz; rewrite /ndim -e.
Qed.

Lemma psi_tucker_raw (fs : seq arr) core mu r1 r2 L Rt : wf_tucker fs core ->
  (mu < size fs)%N -> (1 < size fs)%N ->
  lmat (Tucker fs core) L mu r1 -> rmat (Tucker fs core) Rt mu.+1 r2 ->
  psi_tucker fs core mu L Rt =
    Ok (tab3 r1 (nth 0%N [seq dim U 1 | U <- fs] mu) r2 (raw_psi (Tucker fs core) mu L Rt)).
Proof.
case/and3P=> wc /eqP sc /allP wU ml sz hL hR.
have /andP[wU1 /eqP sU] := wU _ (mem_nth (C0 R) ml).
rewrite /psi_tucker (_ : pyget fs mu = Ok (nth (C0 R) fs mu)); last first.
  by rewrite /pyget (drop_nth (C0 R)).
rewrite -/(tranks fs) in sc; rewrite [LHS]/= /tucker_rank -/(tranks fs).
have em : nth 0%N (tranks fs) mu = dim (nth (C0 R) fs mu) 0 by rewrite (nth_map (C0 R)).
have mlt : (mu < size (tranks fs))%N by rewrite size_map.
have -> : (if L is Some l then dim l 0 else 1%N) = prods (take mu (tranks fs)).
  by case: L hL => [L|] /=; [case/andP=> _ /andP[_ /eqP sL]; rewrite /dim sL | case/andP=> /eqP->; rewrite take0].
have -> : (if Rt is Some r then dim r 0 else 1%N) = prods (drop mu.+1 (tranks fs)).
  case: Rt hR => [L'|] /=; [by case/andP=> _ /andP[_ /eqP sL]; rewrite /dim sL|].
  by case/andP=> /eqP e _; rewrite drop_oversize // e !size_map.
rewrite reshapeE; last by rewrite sc /= muln1 prods_split.
rewrite [LHS]/= (nth_map (C0 R)) //; set T := Nd _ _.
have gT p m q : (p < prods (take mu (tranks fs)))%N -> (q < prods (drop mu.+1 (tranks fs)))%N ->
  get T [:: p; m; q] = get core (unravel (take mu (tranks fs)) p ++ m :: unravel (drop mu.+1 (tranks fs)) q).
  move=> hp hq; have := @get_split3 _ core mu p m q; by rewrite /ndim /dim sc em => <-.
rewrite (nth_map (C0 R)) //; set U := nth (C0 R) fs mu; rewrite -/U in em sU wU1.
set F := fun (x m z : nat) => \sum_(0 <= p < prods (take mu (tranks fs)))
   \sum_(0 <= q < prods (drop mu.+1 (tranks fs)))
     ogv (Tucker fs core) L p x * get T [:: p; m; q] * ogv (Tucker fs core) Rt q z.
have -> : (match L, Rt with
     | Some l, Some r => einsum "ij,jkl,lm->ikm" [:: tr l; T; r]
     | Some l, None => einsum "ij,jkl->ikl" [:: tr l; T]
     | None, Some r => einsum "ijk,kl->ijl" [:: T; r]
     | None, None => Err TypeError
     end) = Ok (tab3 r1 (dim U 0) r2 F).
  rewrite /F; case: L Rt hL hR {F} => [L|] [Rt|] /=.
  - case/andP=> _ /andP[_ /eqP sL] /andP[_ /andP[_ /eqP sR]].
    rewrite (@es_ij_jkl_lm R _ T _ _ _ (dim U 0) _ _ (nshape_tr sL) _ sR) //; congr Ok.
    apply: tab3_ext => x y z hx hy hz.
    apply: eq_big_nat => p /andP[_ hp]; apply: eq_big_nat => q /andP[_ hq].
    by rewrite (get_tr sL) // mulrA.
  - case/andP=> _ /andP[_ /eqP sL] /andP[/eqP e /eqP ->].
    have d0 : drop mu.+1 (tranks fs) = [::] by rewrite drop_oversize // e !size_map.
    rewrite (@es_ij_jkl R _ T _ _ (dim U 0) 1 (nshape_tr sL)) ?/T ?d0 //; congr Ok.
    apply: tab3_ext => x y z hx hy hz.
    apply: eq_big_nat => p /andP[_ hp]; rewrite sum1 mulr1 (get_tr sL) //.
    by case: z hz.
  - case/andP=> /eqP m0 /eqP -> /andP[_ /andP[_ /eqP sR]].
    rewrite (@es_ijk_kl R T _ 1 (dim U 0) _ _ _ sR) ?/T ?m0 ?take0 //; last by rewrite /= /U m0.
    congr Ok.
    apply: tab3_ext => x y z hx hy hz; rewrite sum1.
    apply: eq_big_nat => q /andP[_ hq]; rewrite mul1r.
    by case: x hx.
  - by case/andP=> /eqP-> _ /andP[/eqP e _]; move: sz; rewrite -(size_map (fun U : arr => dim U 1)) -e.
rewrite [LHS]/= (@es_ijk_jl R _ U r1 (dim U 0) r2 (dim U 1)) //; congr Ok.
apply: tab3_ext => x y z hx hy hz; rewrite /raw_psi /= -/(tranks fs) -/U.
under eq_big_nat => m /andP[_ hm] do rewrite get_tab3 // /F big_distrl /=.
rewrite exchange_big /=; apply: eq_big_nat => p /andP[_ hp].
under eq_bigr => m _ do rewrite big_distrl /=.
rewrite exchange_big /=; apply: eq_big_nat => q /andP[_ hq].
rewrite big_distrr big_distrl /=; apply: eq_bigr => m _; rewrite gT //.
by rewrite mulrAC -!mulrA.
Qed.

(* ---- sparse ---- *)
Lemma sum_mask (row : seq nat) (j : nat) (F : nat -> R) :
  let msk := [seq k <- iota 0 (size row) | nth 0%N row k == j] in
  \sum_(0 <= l < size msk) F (nth 0%N msk l) =
  \sum_(0 <= k < size row) (nth 0%N row k == j)%:R * F k.
Proof.
move=> msk; rewrite -(big_nth 0%N xpredT F) big_filter big_mkcond /= /index_iota subn0.
by apply: eq_bigr => k _; case: eqP => _; rewrite ?mul1r ?mul0r.
Qed.

Lemma reshape_vec n (f : nat -> R) (s : seq nat) (g : nat -> nat -> R) m p : s = [:: m; p] ->
  (m * p = n)%N -> (forall x y, (x < m)%N -> (y < p)%N -> f (x * p + y)%N = g x y) ->
  reshape (tab1 n f) s = Ok (tab2 m p g).
Proof.
move=> -> e H; apply: reshape_tab' => [||x /inb2P[a [b [-> ha hb]]]]; rewrite ?nwf_tab //= ?muln1 //.
exists [:: (a * p + b)%N]; first by rewrite /= !muln1 !addn0.
by rewrite get_tab1 ?H // -e; apply: (@leq_trans (a.+1 * p)%N); [rewrite mulSn; lia | rewrite leq_mul2r ha orbT].
Qed.

Lemma slice_raw s inds (vals : seq R) mu r1 r2 L Rt (j : nat) :
  wf_inds s inds (size vals) -> (mu < size s)%N -> (1 < size s)%N ->
  lmat (Sparse s inds vals) L mu r1 -> rmat (Sparse s inds vals) Rt mu.+1 r2 ->
  psi_core_slice inds vals L Rt mu j =
  Ok (tab2 r1 r2 (fun a b => \sum_(0 <= k < size vals) (nth 0%N (nth [::] inds mu) k == j)%:R *
        (ogv (Sparse s inds vals) L k a * nth 0 vals k * ogv (Sparse s inds vals) Rt k b))).
Proof.
case/and3P=> /eqP si /allP sr _ ml sz hL hR.
have sr' : size (nth [::] inds mu) = size vals by apply/eqP/sr/mem_nth; rewrite si.
rewrite /psi_core_slice (_ : pyget inds mu = Ok (nth [::] inds mu)); last first.
  by rewrite /pyget (drop_nth [::]) ?si.
rewrite [LHS]/= si; set row := nth [::] inds mu; rewrite -/row in sr'.
set msk := [seq k <- _ | _]; have am : all (fun k : nat => (k < size vals)%N) msk.
  by apply/allP => k; rewrite mem_filter mem_iota sr' => /andP[_].
have gm l : (l < size msk)%N -> get (vec [seq nth 0 vals k | k <- msk]) [:: l] = nth 0 vals (nth 0%N msk l).
  by move=> h; rewrite get_vec (nth_map 0%N).
have sv : nshape (vec [seq nth 0 vals k | k <- msk]) = [:: size msk] by rewrite /= size_map.
case: L Rt hL hR => [L|] [Rt|] /=.
- case/andP=> m0 /andP[_ /eqP sL] /andP[m1 /andP[_ /eqP sR]]; rewrite /= in sL sR.
  rewrite -[mu == 0%N]negbK -lt0n m0 /= (_ : mu == _ = false); last by apply/negbTE; lia.
  rewrite (take1E sL am) /= (take1E sR am) /=.
  rewrite (@nmul_row _ _ _ r1) /= ?size_map //.
  rewrite (@matmul22 R _ _ r1 (size msk) r2) //=; congr Ok; apply: tab2_ext => x y hx hy.
  rewrite -sr' -(sum_mask row j (fun k => gv _ L k x * nth 0 vals k * gv _ Rt k y)) -/msk.
  apply: eq_big_nat => l /andP[_ hl]; rewrite get_tab2 // get_tab2 // (nth_map 0%N) //.
  rewrite (@get_tr _ _ r2 (size msk)) // get_tab2 //.
- case/andP=> m0 /andP[_ /eqP sL] /andP[/eqP em /eqP ->]; rewrite /= in sL.
  rewrite -[mu == 0%N]negbK -lt0n m0 /= (_ : mu == _ = true); last by apply/eqP; lia.
  rewrite (take1E sL am) [bind (Ok _) _]/= (@matmul21 R _ _ (size msk) r1) //.
  rewrite [LHS]/= muln1; apply: reshape_vec => //; first by rewrite muln1.
  move=> x y hx hy; have -> : (x * 1 + y = x)%N by lia.
  rewrite -sr' -(sum_mask row j (fun k => gv _ L k x * nth 0 vals k * 1)) -/msk.
  by apply: eq_big_nat => l /andP[_ hl]; rewrite get_tab2 // gm // mulr1.
- case/andP=> /eqP m0 /eqP -> /andP[_ /andP[_ /eqP sR]]; rewrite /= in sR; rewrite m0 /=.
  rewrite (take1E sR am) [bind (Ok _) _]/= (@matmul12 R _ _ (size msk) r2) //.
  rewrite [LHS]/= muln1; apply: reshape_vec => //; first by rewrite mul1n.
  move=> x y hx hy; have -> : (x * r2 + y = y)%N by move: hx; case: x.
  rewrite -sr' -(sum_mask row j (fun k => 1 * nth 0 vals k * gv _ Rt k y)) -/msk.
  apply: eq_big_nat => l /andP[_ hl]; rewrite gm // mul1r.
  by rewrite (@get_tr _ _ r2 (size msk)) // get_tab2.
- by case/andP=> /eqP-> _ /andP[/eqP e _]; move: sz; rewrite -e.
Qed.

Lemma set_midE r1 n r2 (f : nat -> nat -> nat -> R) j (S0 : arr) : nshape S0 = [:: r1; r2] ->
  set_mid (tab3 r1 n r2 f) j S0 =
  Ok (tab3 r1 n r2 (fun a k b => if k == j then get S0 [:: a; b] else f a k b)).
Proof.
move=> e; rewrite /set_mid e /dim /= bcasts eqxx; congr Ok.
apply: tab_ext => x /inb3P[a [k [b [-> ha hk hb]]]] /=; rewrite get_tab3 //.
by rewrite getb_get // e /= ha hb.
Qed.

Lemma fold_mid r1 n r2 (slice : nat -> res arr) (F : nat -> arr) m :
  (forall j, (j < m)%N -> slice j = Ok (F j) /\ nshape (F j) = [:: r1; r2]) ->
  foldM (fun P j => do S0 <- slice j; set_mid P j S0) (zeros R [:: r1; n; r2]) (iota 0 m) =
  Ok (tab3 r1 n r2 (fun a k b => if (k < m)%N then get (F k) [:: a; b] else 0)).
Proof.
elim: m => [|m IH] H; first by congr Ok.
rewrite iotaSr foldM_rcons IH; last by move=> j hj; apply: H; rewrite ltnS ltnW.
have [-> e] := H m (ltnSn m); rewrite /= set_midE //; congr Ok.
apply: tab3_ext => a k b _ _ _; rewrite add0n [in RHS]ltnS [in RHS]leq_eqVlt.
by case: eqP => [->|].
Qed.

Lemma psi_sparse_raw s inds (vals : seq R) mu r1 r2 L Rt : 
  wf_inds s inds (size vals) -> (mu < size s)%N -> (1 < size s)%N ->
  lmat (Sparse s inds vals) L mu r1 -> rmat (Sparse s inds vals) Rt mu.+1 r2 ->
  psi_sparse inds vals mu [:: r1; nth 0%N s mu; r2] L Rt =
    Ok (tab3 r1 (nth 0%N s mu) r2 (raw_psi (Sparse s inds vals) mu L Rt)).
Proof.
move=> w ml sz hL hR; rewrite /psi_sparse [nth 0%N [:: _; _; _] 1]/=.
rewrite (fold_mid _ (m := nth 0%N s mu) (F := fun j => tab2 r1 r2 (fun a b => 
   \sum_(0 <= k < size vals) (nth 0%N (nth [::] inds mu) k == j)%:R *
        (ogv (Sparse s inds vals) L k a * nth 0 vals k * ogv (Sparse s inds vals) Rt k b)))).
  congr Ok; apply: tab3_ext => x y z hx hy hz; rewrite hy get_tab2 // /raw_psi /=.
  apply: eq_big_nat => p /andP[_ hp].
  rewrite (eq_bigr (fun q => (p == q)%:R * (ogv (Sparse s inds vals) L p x *
   ((nth 0%N (nth [::] inds mu) p == y)%:R * nth 0 vals p) * ogv (Sparse s inds vals) Rt q z))).
    by rewrite sum_deltal // !mulrA; congr (_ * _ * _); exact: mulrC.
  by move=> q _; rewrite mulrCA !mulrA.
by move=> j hj; split=> //; apply: slice_raw.
Qed.

Lemma psi_rawE nr X mu r1 r2 L Rt : leaf X -> wf_gen nr X -> (mu < size (tshape X))%N ->
  (1 < size (tshape X))%N -> lmat X L mu r1 -> rmat X Rt mu.+1 r2 ->
  psi_leaf X mu [:: r1; nth 0%N (tshape X) mu; r2] L Rt =
    Ok (tab3 r1 (nth 0%N (tshape X) mu) r2 (raw_psi X mu L Rt)).
Proof.
case: X => [a|s inds vals|cs|cs|fs core|//] _ w ml sz hL hR.
- exact: psi_dense_raw.
- by apply: psi_sparse_raw => //; case/andP: w.
- by apply: psi_tt_raw => //; [move: ml | move: sz]; rewrite /= size_map.
- by apply: psi_cp_raw => //; [move: ml | move: sz]; rewrite /= size_map.
- by apply: psi_tucker_raw => //; [move: ml | move: sz]; rewrite /= size_map.
Qed.
End Raw.
