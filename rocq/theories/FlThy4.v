(* Proofs for property C68, part 4: gather and dot. *)
From Coq Require Import String Ascii.
From mathcomp Require Import all_ssreflect all_algebra.
From mathcomp Require Import zify.
From Verif Require Import Py Nd NdThy Ein Utils Tensor Spec ChainThy TensorThy TensorThy2 GatherThy FlModel FlSpec FlThy1 FlThy2.
Set Implicit Arguments. Unset Strict Implicit. Unset Printing Implicit Defensive.
Import GRing.Theory Num.Theory Order.TTheory.
Local Open Scope ring_scope.

Section Gather.
Variable R : realDomainType.
Variable u : R.
Hypothesis u0 : 0 <= u.
Notation arr := (nd R).
Notation tensor := (tensor R).
Notation apx := (apx u).
Implicit Types (cs todo done : seq arr) (A B C a b : arr).

Lemma fl_gather_fold todo done (idx1 idx2 : seq (seq nat)) N n r r' A A' :
  links 1 done r -> links r todo r' -> size idx1 = size done -> size idx2 = size todo ->
  nwf A -> nshape A = [:: N; r] ->
  (forall k z, (k < N)%N -> (z < r)%N ->
     apx n (chain (map (@nabs R) done) (column idx1 k) 0 z) (chain done (column idx1 k) 0 z) (get A [:: k; z])) ->
  fl_fold (fun A p => fl_gather_step u p.2 N A p.1) A (zip todo idx2) A' ->
  [/\ nwf A', nshape A' = [:: N; r'] & forall k z, (k < N)%N -> (z < r')%N ->
    apx (n + sumn [seq dim C 0 | C <- todo]) (chain (map (@nabs R) (done ++ todo)) (column (idx1 ++ idx2) k) 0 z)
      (chain (done ++ todo) (column (idx1 ++ idx2) k) 0 z) (get A' [:: k; z])].
Proof.
elim: todo done idx1 idx2 n r A => [|C todo IH] done idx1 [|row idx2] n r A //.
  by move=> _ /eqP <- _ _ HA SA GA /= ->; rewrite !cats0 addn0.
move=> Hl /and3P[HC /eqP SC Ht] Hs1 [Hs2] HA SA GA [A1 [H1 S1 G1] hf].
have dC : dim C 0 = r by rewrite /dim SC.
rewrite /= addnA -!cat_rcons; apply: (IH (rcons done C) (rcons idx1 row) idx2 _ (dim C 2) A1) hf => //.
- exact: links_rconsI Hl HC SC.
- by rewrite !size_rcons Hs1.
move=> k z Hk Hz; rewrite /column !map_rcons -/(column idx1 k).
have Hc : size (column idx1 k) = size done by rewrite size_map.
rewrite (chain_rcons _ Hl) // (@chain_rcons _ 1 (map (@nabs R) done) (nabs C) r) ?links_nabs ?size_map //.
rewrite -(addn0 n); have := fl_dot_nat u0 (G1 _ _ Hk Hz); rewrite dC; apply=> j hj; first exact: GA.
exact: apx_core.
Qed.

Lemma fl_tt_gatherP cs idx N v : wf_tt cs -> wf_inds (tshape (TT cs : tensor)) idx N -> fl_tt_gather u cs idx v ->
  size v = N /\ forall k, (k < N)%N -> apx (roundings (TT cs))
    (den (tabs (TT cs)) (column idx k)) (den (TT cs) (column idx k)) (nth 0 v k).
Proof.
case: cs => [|C0 cs] // /andP[_] /= /and3P[HC0 /eqP SC0 Hl] Hw.
have /and3P[/eqP Hsz Hrow Hin] := Hw.
case: idx Hw Hsz Hrow Hin => [|i0 idx] // Hw Hsz Hrow Hin [c0 [r0 [r [Ec0 Er0 hf ->]]]].
have Ei0 : size i0 = N by case/andP: Hrow => /eqP.
have P1 : prods (behead (nshape C0)) = prods (nshape C0).
  by rewrite SC0 /= !muln1 mul1n.
have [c0' Ec0' [Hc0 Sc0 Gc0]] := reshape_spec HC0 P1.
move: Ec0'; rewrite Ec0 => -[?]; subst c0'.
rewrite SC0 /= in Sc0.
rewrite (take0E Sc0) /= in Er0; last first.
  apply/(all_nthP 0%N) => k; rewrite Ei0 => Hk.
  have /(allP Hin) : k \in iota 0 N by rewrite mem_iota.
  by case/andP.
case: Er0 => ?; subst r0; rewrite Ei0 in hf.
have L1 : links 1 [:: C0] (dim C0 2) by rewrite /= HC0 {1}SC0 !eqxx.
have [||||H1 H2 H3] := @fl_gather_fold cs [:: C0] [:: i0] idx N 0 (dim C0 2) 1 _ r L1 Hl erefl _ _ _ _ hf.
- by move: Hsz => /= [->]; rewrite size_map.
- exact: nwf_tab.
- by [].
- move=> k z Hk Hz; rewrite get_tab2 //.
  rewrite -/(chain [:: C0] [:: nth 0%N i0 k] 0 z) -/(chain [:: nabs C0] [:: nth 0%N i0 k] 0 z) !chain1 //=.
  have -> : get c0 [:: nth 0%N i0 k; z] = get C0 [:: 0%N; nth 0%N i0 k; z].
    by apply: Gc0; rewrite {1 2}SC0 /=; lia.
  exact: apx_core.
rewrite (ndata_col H1 H2) size_map size_iota; split=> // k hk.
rewrite (nth_map 0%N) ?size_iota // nth_iota // add0n; exact: H3.
Qed.

Lemma fl_cp_prodP k x (l : seq (arr * seq nat)) n (M A z z' : R) : apx n M A z ->
  fl_fold (fl_cp_prod u k x) z l z' ->
  apx (n + size l) (M * \prod_(p <- l) `|get p.1 [:: nth 0%N p.2 k; x]|)
    (A * \prod_(p <- l) get p.1 [:: nth 0%N p.2 k; x]) z'.
Proof.
elim: l n M A z => [|p l IH] n M A z a /=; first by move=> ->; rewrite !big_nil !mulr1 addn0.
case=> z1 h hf; rewrite !big_cons !mulrA addnS -addSn; apply: IH hf.
apply: apx_rnd h => //; rewrite -(addn0 n); apply: apx_mul => //; exact: apx_exact.
Qed.

Lemma fl_cp_gatherP cs idx N v : wf_cp cs -> wf_inds (tshape (CP cs : tensor)) idx N -> fl_cp_gather u cs idx v ->
  size v = N /\ forall k, (k < N)%N -> apx (roundings (CP cs))
    (den (tabs (CP cs)) (column idx k)) (den (CP cs) (column idx k)) (nth 0 v k).
Proof.
case: cs => [|C0 cs] // /andP[_] /= /andP[/andP[HC0 /eqP SC0] Hcs] /and3P[/eqP Hsz Hrow Hin].
case: idx Hsz Hrow Hin => [|i0 idx] // Hsz Hrow Hin [Hv h].
have Ei0 : size i0 = N by case/andP: Hrow => /eqP.
rewrite Ei0 in Hv h; split=> // k hk; have [z hz hs] := h k hk.
have hsz : size cs = size idx by move: Hsz => /= [->]; rewrite size_map.
have := fl_sumP u0 hs (n := size cs)
  (m := fun x => \prod_(p <- zip (map (@nabs R) (C0 :: cs)) (column (i0 :: idx) k)) get p.1 [:: p.2; x])
  (x := fun x => \prod_(p <- zip (C0 :: cs) (column (i0 :: idx) k)) get p.1 [:: p.2; x]).
rewrite size_iota /index_iota subn0; apply=> x; rewrite mem_iota add0n => /andP[_ hx].
have := fl_cp_prodP (apx_core u C0 [:: nth 0%N i0 k; x]) (hz x hx).
rewrite add0n size_zip hsz minnn -hsz /= !big_cons /=.
have e (g : arr -> arr) (w : R -> R) (l : seq arr) (jn : seq (seq nat)) :
  (forall a i, get (g a) i = w (get a i)) ->
  \prod_(p <- zip (map g l) (column jn k)) get p.1 [:: p.2; x] = \prod_(p <- zip l jn) w (get p.1 [:: nth 0%N p.2 k; x]).
  move=> hg; elim: l jn => [|c l IHl] [|i jn] /=; rewrite ?big_nil //.
  by rewrite !big_cons /= IHl hg.
by rewrite (e _ Num.norm) ?(e id id) -?(e id id) ?map_id //; exact: get_nabs.
Qed.
End Gather.

Section Dot.
Variable R : realDomainType.
Variable u : R.
Hypothesis u0 : 0 <= u.
Notation arr := (nd R).
Notation tensor := (tensor R).
Notation apx := (apx u).
Implicit Types (cs todo done : seq arr).

Definition gsum (d1 d2 : seq arr) x y : R :=
  sum_idx [seq dim C 1 | C <- d1] (fun i => chain d1 i 0 x * chain d2 i 0 y).
Definition gnext n1 n2 n (r A B : nat -> nat -> R) : R :=
  \sum_(0 <= i < n1) \sum_(0 <= j < n2) \sum_(0 <= k < n) r i j * (A i k * B j k).

Lemma gsum_rcons d1 d2 a b (A B : arr) c d x y : links 1 d1 a -> links 1 d2 b ->
  [seq dim C 1 | C <- d1] = [seq dim C 1 | C <- d2] ->
  nshape A = [:: a; dim A 1; c] -> nshape B = [:: b; dim A 1; d] -> (x < c)%N -> (y < d)%N ->
  gsum (rcons d1 A) (rcons d2 B) x y =
  gnext a b (dim A 1) (gsum d1 d2) (fun i k => get A [:: i; k; x]) (fun j k => get B [:: j; k; y]).
Proof.
move=> L1 L2 Esh SA SB Hx Hy.
have D2A : dim A 2 = c by rewrite /dim SA.
have D2B : dim B 2 = d by rewrite /dim SB.
have Esz : size d1 = size d2 by rewrite -(size_map (fun C => dim C 1)) Esh size_map.
rewrite /gsum map_rcons sum_idx_rcons; apply: esym.
transitivity (sum_idx [seq dim C 1 | C <- d1] (fun i =>
  \sum_(0 <= xi < a) \sum_(0 <= xj < b) \sum_(0 <= xk < dim A 1)
     chain d1 i 0 xi * chain d2 i 0 xj * (get A [:: xi; xk; x] * get B [:: xj; xk; y]))).
  rewrite /gnext sum_idx_big; apply: eq_big_nat => xi /= Hi.
  rewrite sum_idx_big; apply: eq_big_nat => xj /= Hj.
  rewrite sum_idx_big; apply: eq_bigr => xk _.
  by rewrite sum_idxZr.
apply: eq_sum_idx => i Hi.
have S1 : size i = size d1 by rewrite (inb_size Hi) size_map.
rewrite exchange_big /= (eq_bigr _ (fun _ _ => exchange_big _ _ _ _ _ _)) /= exchange_big /=.
apply: eq_bigr => xk _.
rewrite (chain_rcons _ L1) ?D2A // (chain_rcons _ L2) ?D2B ?S1 //.
rewrite exchange_big /= big_distrl /=; apply: eq_bigr => xi _; rewrite big_distrr /=.
by apply: eq_bigr => xj _; rewrite mulrACA.
Qed.

Lemma bigi n (F : nat -> R) : \sum_(0 <= i < n) F i = \sum_(i <- iota 0 n) F i.
Proof. by rewrite /index_iota subn0. Qed.
Lemma path1 n1 n2 n (r A B : nat -> nat -> R) : \sum_(p <- [seq (j, k) | j <- iota 0 n2, k <- iota 0 n])
   (\sum_(0 <= i < n1) r i p.1 * A i p.2) * B p.1 p.2 = gnext n1 n2 n r A B :> R.
Proof.
rewrite big_allpairs /= /gnext [RHS]exchange_big /= [RHS]bigi; apply: eq_bigr => j _.
rewrite [RHS]exchange_big /= [RHS]bigi; apply: eq_bigr => k _.
by rewrite big_distrl /=; apply: eq_bigr => i _; rewrite mulrA.
Qed.
Lemma path2 n1 n2 n (r A B : nat -> nat -> R) : \sum_(p <- [seq (i, k) | i <- iota 0 n1, k <- iota 0 n])
   (\sum_(0 <= j < n2) r p.1 j * B j p.2) * A p.1 p.2 = gnext n1 n2 n r A B :> R.
Proof.
rewrite big_allpairs /= /gnext [RHS]bigi; apply: eq_bigr => i _.
rewrite [RHS]exchange_big /= [RHS]bigi; apply: eq_bigr => k _.
by rewrite big_distrl /=; apply: eq_bigr => j _; rewrite mulrAC mulrA.
Qed.
Lemma path3 n1 n2 n (r A B : nat -> nat -> R) : \sum_(p <- [seq (i, j) | i <- iota 0 n1, j <- iota 0 n2])
   r p.1 p.2 * (\sum_(0 <= k < n) A p.1 k * B p.2 k) = gnext n1 n2 n r A B :> R.
Proof.
rewrite big_allpairs /= /gnext [RHS]bigi; apply: eq_bigr => i _.
rewrite [RHS]bigi; apply: eq_bigr => j _.
by rewrite big_distrr.
Qed.

Definition step_roundings n1 n2 n : nat := maxn (n1 + n2 * n) (maxn (n2 + n1 * n) (n + n1 * n2)).

Lemma in_pairs n1 n2 p : p \in [seq (j, k) | j <- iota 0 n1, k <- iota 0 n2] -> (p.1 < n1)%N /\ (p.2 < n2)%N.
Proof. by case/allpairsP=> -[j k] /= [h1 h2 ->]; move: h1 h2; rewrite !mem_iota. Qed.

Lemma fl_dot_stepP n n1 n2 M G r (A B : arr) r' x y :
  dim A 0 = n1 -> dim B 0 = n2 ->
  (forall i j, (i < n1)%N -> (j < n2)%N -> apx n (M i j) (G i j) (get r [:: i; j])) ->
  fl_dot_step u r (A, B) r' -> (x < dim A 2)%N -> (y < dim B 2)%N ->
  apx (n + step_roundings n1 n2 (dim A 1))
    (gnext n1 n2 (dim A 1) M (fun i k => get (nabs A) [:: i; k; x]) (fun j k => get (nabs B) [:: j; k; y]))
    (gnext n1 n2 (dim A 1) G (fun i k => get A [:: i; k; x]) (fun j k => get B [:: j; k; y])) (get r' [:: x; y]).
Proof.
move=> dA dB hr; rewrite /fl_dot_step dA dB => -[_ _ h] hx hy; rewrite /step_roundings.
case: h => [[t ht hr']|[[t ht hr']|[t ht hr']]].
- rewrite -!path1; have := fl_dotP u0 (hr' x y hx hy) (n1 := n + n1) (n2 := 0)
    (m := fun p => \sum_(0 <= i < n1) M i p.1 * get (nabs A) [:: i; p.2; x])
    (m' := fun p => get (nabs B) [:: p.1; p.2; y])
    (x := fun p => \sum_(0 <= i < n1) G i p.1 * get A [:: i; p.2; x]) (x' := fun p => get B [:: p.1; p.2; y]).
  rewrite size_allpairs !size_iota => h; apply: apx_mono (h _ _) => //; first by rewrite addn0; lia.
    move=> p /in_pairs[h1 h2]; have := fl_dot_nat u0 (ht p.1 p.2 x h1 h2 hx) (n1 := n) (n2 := 0); rewrite addn0; apply=> i hi; first exact: hr.
    exact: apx_core.
  by move=> p _; exact: apx_core.
- rewrite -!path2; have := fl_dotP u0 (hr' x y hx hy) (n1 := n + n2) (n2 := 0)
    (m := fun p => \sum_(0 <= j < n2) M p.1 j * get (nabs B) [:: j; p.2; y])
    (m' := fun p => get (nabs A) [:: p.1; p.2; x])
    (x := fun p => \sum_(0 <= j < n2) G p.1 j * get B [:: j; p.2; y]) (x' := fun p => get A [:: p.1; p.2; x]).
  rewrite size_allpairs !size_iota => h; apply: apx_mono (h _ _) => //; first by rewrite addn0; lia.
    move=> p /in_pairs[h1 h2]; have := fl_dot_nat u0 (ht p.1 p.2 y h1 h2 hy) (n1 := n) (n2 := 0); rewrite addn0; apply=> j hj; first exact: hr.
    exact: apx_core.
  by move=> p _; exact: apx_core.
rewrite -!path3; have := fl_dotP u0 (hr' x y hx hy) (n1 := n) (n2 := dim A 1)
    (m := fun p => M p.1 p.2)
    (m' := fun p => \sum_(0 <= k < dim A 1) get (nabs A) [:: p.1; k; x] * get (nabs B) [:: p.2; k; y])
    (x := fun p => G p.1 p.2) (x' := fun p => \sum_(0 <= k < dim A 1) get A [:: p.1; k; x] * get B [:: p.2; k; y]).
rewrite size_allpairs !size_iota => h; apply: apx_mono (h _ _) => //; first by lia.
  by move=> p /in_pairs[h1 h2]; exact: hr.
move=> p /in_pairs[h1 h2]; have := fl_dot_nat u0 (ht p.1 x p.2 y h1 hx h2 hy) (n1 := 0) (n2 := 0).
by rewrite !add0n; apply=> j hj; exact: apx_core.
Qed.

Fixpoint dot_steps (cs1 cs2 : seq arr) : nat :=
  match cs1, cs2 with
  | A :: cs1', B :: cs2' => (step_roundings (dim A 0) (dim B 0) (dim A 1) + dot_steps cs1' cs2')%N
  | _, _ => 0%N
  end.

Lemma fl_dot_foldP todo1 todo2 d1 d2 a b n r r' : links 1 d1 a -> links 1 d2 b ->
  [seq dim C 1 | C <- d1] = [seq dim C 1 | C <- d2] ->
  nwf r -> nshape r = [:: a; b] ->
  (forall i j, (i < a)%N -> (j < b)%N ->
     apx n (gsum (map (@nabs R) d1) (map (@nabs R) d2) i j) (gsum d1 d2 i j) (get r [:: i; j])) ->
  links a todo1 1 -> links b todo2 1 ->
  [seq dim C 1 | C <- todo1] = [seq dim C 1 | C <- todo2] ->
  fl_fold (fl_dot_step u) r (zip todo1 todo2) r' ->
  [/\ nwf r', nshape r' = [:: 1; 1]%N & apx (n + dot_steps todo1 todo2)
     (gsum (map (@nabs R) (d1 ++ todo1)) (map (@nabs R) (d2 ++ todo2)) 0 0) (gsum (d1 ++ todo1) (d2 ++ todo2) 0 0)
     (get r' [:: 0; 0]%N)].
Proof.
elim: todo1 todo2 d1 d2 a b n r => [|A todo1 IH] [|B todo2] //= d1 d2 a b n r L1 L2 Esh Hr Sr G.
  move=> /eqP Ea /eqP Eb _ ->; rewrite {}Ea {}Eb in Sr G; rewrite !cats0 addn0; split=> //; exact: G.
case/and3P=> HA /eqP SA LA /and3P[HB /eqP SB LB] [ES ES'] [r1 hs hf].
have dA : dim A 0 = a by rewrite /dim SA.
have dB : dim B 0 = b by rewrite /dim SB.
have SB' : nshape B = [:: b; dim A 1; dim B 2] by rewrite ES.
have [H1 S1 _] := hs.
rewrite addnA -!cat_rcons; apply: (IH todo2 (rcons d1 A) (rcons d2 B) (dim A 2) (dim B 2) _ r1) => //.
- exact: links_rconsI L1 HA SA.
- exact: links_rconsI L2 HB SB.
- by rewrite !map_rcons Esh ES.
move=> x y hx hy; rewrite dA dB.
rewrite !map_rcons (gsum_rcons L1 L2 Esh SA SB') //.
rewrite (@gsum_rcons _ _ a b (nabs A) (nabs B) (dim A 2) (dim B 2)) ?links_nabs ?map_nabs_dim //.
exact: (fl_dot_stepP dA dB G hs hx hy).
Qed.

Lemma fl_tt_dotP cs1 cs2 y : wf_tt cs1 -> wf_tt cs2 -> tshape (TT cs1 : tensor) = tshape (TT cs2 : tensor) ->
  fl_tt_dot u cs1 cs2 y ->
  apx (dim (head (Nd [::] [::]) cs1) 1 + dot_steps (behead cs1) (behead cs2))
    (inner (tabs (TT cs1)) (tabs (TT cs2))) (inner (TT cs1) (TT cs2)) y.
Proof.
case: cs1 cs2 => [|A cs1] [|B cs2] // /andP[_ L1] /andP[_ L2] ES [r0 [r [[H0 S0 G0] hf hs]]].
have [ES0 ES'] : dim A 1 = dim B 1 /\ [seq dim C 1 | C <- cs1] = [seq dim C 1 | C <- cs2] by case: ES.
have /and3P[HA /eqP SA L1'] := L1; have /and3P[HB /eqP SB L2'] := L2.
have LA : links 1 [:: A] (dim A 2) by rewrite /= HA {1}SA !eqxx.
have LB : links 1 [:: B] (dim B 2) by rewrite /= HB {1}SB !eqxx.
have Es : [seq dim C 1 | C <- [:: A]] = [seq dim C 1 | C <- [:: B]] by rewrite /= ES0.
have [] := @fl_dot_foldP cs1 cs2 [:: A] [:: B] _ _ (dim A 1) r0 r LA LB Es H0 S0 _ L1' L2' ES' hf.
  move=> i j hi hj; rewrite /gsum [map _ _]/= [map _ _]/= [map _ _]/= [map _ _]/= !sum_idx1.
  have := fl_dot_nat u0 (G0 i j hi hj) (n1 := 0) (n2 := 0); rewrite !add0n.
  rewrite dim_nabs (eq_bigr (fun k => get (nabs A) [:: 0%N; k; i] * get (nabs B) [:: 0%N; k; j])); last first.
    by move=> k _; rewrite !chain1.
  rewrite [X in apx _ _ X](eq_bigr (fun k => get A [:: 0%N; k; i] * get B [:: 0%N; k; j])); last first.
    by move=> k _; rewrite !chain1.
  by apply=> k _; exact: apx_core.
move=> Hr Sr Gr.
have s1 : size (ndata r) = 1%N by rewrite (eqP Hr) Sr.
rewrite s1 in hs; move: hs Gr; rewrite /get Sr /= mul0n addn0 => hs Gr.
have := fl_sumP u0 hs (n := dim A 1 + dot_steps cs1 cs2)
  (m := fun=> gsum (map (@nabs R) (A :: cs1)) (map (@nabs R) (B :: cs2)) 0 0) (x := fun=> gsum (A :: cs1) (B :: cs2) 0 0).
rewrite !big_seq1 addn0 => h; apply: h => j; rewrite inE => /eqP ->; exact: Gr.
Qed.
End Dot.
