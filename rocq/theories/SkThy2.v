(* The Omega and Psi computations of every storage format in terms of the bond
   decompositions of SkThy1.v. *)
From Coq Require Import String Ascii NArith.
From mathcomp Require Import all_ssreflect all_algebra.
From mathcomp Require Import zify.
From Verif Require Import Py Nd NdThy Ein Utils Tensor Hash Sketch Spec ChainThy TensorThy TensorThy2 GatherThy MatThy SkSpec SkThy1.
Set Implicit Arguments. Unset Strict Implicit. Unset Printing Implicit Defensive.
Import GRing.Theory.
Local Open Scope ring_scope.

Section Raw.
Variable R : comRingType.
Notation arr := (nd R).
Notation tensor := (tensor R).
Implicit Types (X : tensor) (cs : seq arr) (n p q k : nat) (A B L Rt : arr).

(* sparse and dense formats store contractions as (column, position), the others transposed *)
Definition cfirst X : bool := match X with Sparse _ _ _ | Dense _ => true | _ => false end.
Definition gv X A p c : R := if cfirst X then get A [:: c; p] else get A [:: p; c].
Definition smat X A (m r : nat) : bool :=
  nwf A && (nshape A == if cfirst X then [:: r; m] else [:: m; r]).
Definition ogv X (A : option arr) p c : R := if A is Some a then gv X a p c else 1.
Definition lmat X (A : option arr) n r : bool :=
  if A is Some a then (0 < n)%N && smat X a (nbl X n) r else (n == 0%N) && (r == 1%N).
Definition rmat X (A : option arr) n r : bool :=
  if A is Some a then (n < size (tshape X))%N && smat X a (nbr X n) r
  else (n == size (tshape X)) && (r == 1%N).

Definition raw_omega X n (L Rt : arr) a b : R :=
  \sum_(0 <= p < nbl X n) \sum_(0 <= q < nbr X n) gv X L p a * bond X n p q * gv X Rt q b.
Definition raw_psi X n (L Rt : option arr) a k b : R :=
  \sum_(0 <= p < nbl X n) \sum_(0 <= q < nbr X n.+1) ogv X L p a * mid X n p k q * ogv X Rt q b.

(* --- arrays --- *)
Lemma trE A m n : nshape A = [:: m; n] -> tr A = tab2 n m (fun x y => get A [:: y; x]).
Proof. by move=> e; rewrite /tr e; apply: tab_ext => x /inb2P[a [b [-> _ _]]]. Qed.
Lemma nshape_tr A m n : nshape A = [:: m; n] -> nshape (tr A) = [:: n; m].
Proof. by move=> e; rewrite /tr e. Qed.
Lemma get_tr A m n x y : nshape A = [:: m; n] -> (x < n)%N -> (y < m)%N -> get (tr A) [:: x; y] = get A [:: y; x].
Proof. by move=> e hx hy; rewrite (trE e) get_tab2. Qed.

Lemma nmul_row A (v : seq R) m : nshape A = [:: m; size v] ->
  nmul A (vec v) = Ok (tab2 m (size v) (fun x y => get A [:: x; y] * nth 0 v y)).
Proof.
move=> e; rewrite /nmul /elementwise e /bcast /= eqxx /=; congr Ok.
apply: tab_ext => x /inb2P[a [b [-> ha hb]]].
rewrite getb_get ?e /= ?ha ?hb //; congr (_ * _); rewrite /getb /= /get /=.
by case: eqP hb => [->|_]; case: b => // b; rewrite /= muln1 addn0.
Qed.

Lemma take1E A n r (js : seq nat) : nshape A = [:: n; r] -> all (fun j : nat => (j < r)%N) js ->
  take_ax 1 js A = Ok (tab2 n (size js) (fun z k => get A [:: z; nth 0%N js k])).
Proof.
move=> E Hj; rewrite /take_ax /dim E /= Hj; congr Ok;
  by apply: tab_ext => x /inb2P[p [q [-> _ _]]].
Qed.

Lemma matmul12 A B k n : nshape A = [:: k] -> nshape B = [:: k; n] ->
  matmul A B = Ok (tab1 n (fun j => \sum_(0 <= l < k) get A [:: l] * get B [:: l; j])).
Proof.
move=> HA HB; rewrite /matmul HA HB eqxx; congr Ok;
  by apply: tab_ext => x /inb1P[p -> _] /=; rewrite sumrE.
Qed.
Lemma matmul21 A B k n : nshape A = [:: n; k] -> nshape B = [:: k] ->
  matmul A B = Ok (tab1 n (fun j => \sum_(0 <= l < k) get A [:: j; l] * get B [:: l])).
Proof.
move=> HA HB; rewrite /matmul HA HB eqxx; congr Ok;
  by apply: tab_ext => x /inb1P[p -> _] /=; rewrite sumrE.
Qed.
Lemma get_vec (v : seq R) k : get (vec v) [:: k] = nth 0 v k.
Proof. by rewrite /get /= muln1 addn0. Qed.

(* reading a reshaped array *)
Lemma ravel_split (s : seq nat) n p x : (p < prods (take n s))%N ->
  ravel s (unravel (take n s) p ++ x) = (p * prods (drop n s) + ravel (drop n s) x)%N.
Proof.
move=> hp; rewrite -{1}(cat_take_drop n s) ravel_cat ?ravelK //.
exact: inb_size (inb_unravel hp).
Qed.
Lemma get_split A n p q : (p < prods (take n (nshape A)))%N -> (q < prods (drop n (nshape A)))%N ->
  get (Nd [:: prods (take n (nshape A)); prods (drop n (nshape A))] (ndata A)) [:: p; q] =
  get A (unravel (take n (nshape A)) p ++ unravel (drop n (nshape A)) q).
Proof.
by move=> hp hq; apply: get_reshape; rewrite ravel_split // ravelK //= !muln1 addn0.
Qed.
Lemma get_split3 A n p k q : (n < ndim A)%N -> (p < prods (take n (nshape A)))%N ->
  (q < prods (drop n.+1 (nshape A)))%N ->
  get (Nd [:: prods (take n (nshape A)); dim A n; prods (drop n.+1 (nshape A))] (ndata A)) [:: p; k; q] =
  get A (unravel (take n (nshape A)) p ++ k :: unravel (drop n.+1 (nshape A)) q).
Proof.
move=> nl hp hq; apply: get_reshape; rewrite ravel_split //.
by rewrite (@drop_nth _ 0%N n) //= -/(dim A n) ravelK //= !muln1 addn0.
Qed.
Lemma prods_split (s : seq nat) n : (n < size s)%N ->
  (prods (take n s) * (nth 0 s n * prods (drop n.+1 s)) = prods s)%N.
Proof. by move=> h; rewrite -[in RHS](cat_take_drop n s) prods_cat (@drop_nth _ 0%N n). Qed.

Lemma reshape_tab' A s (f : seq nat -> R) : nwf A -> prods s = prods (nshape A) ->
  (forall x, inb s x -> exists2 y, ravel s x = ravel (nshape A) y & get A y = f x) ->
  reshape A s = Ok (tab s f).
Proof.
move=> w e H; rewrite (reshape_tab w e); congr Ok; apply: tab_ext => x hx.
have [y er <-] := H x hx; rewrite er /get; congr nth; rewrite ravelK //.
by rewrite -er -e ravel_lt.
Qed.
Lemma resh_r m n (f : nat -> nat -> R) :
  reshape (tab2 m n f) [:: m; n; 1%N] = Ok (tab3 m n 1 (fun x y _ => f x y)).
Proof.
apply: reshape_tab' => [||x /inb3P[a [b [c [-> ha hb hc]]]]]; rewrite ?nwf_tab /= ?muln1 //.
exists [:: a; b]; last by rewrite get_tab2.
by case: c hc => //= _; rewrite !muln1 !addn0.
Qed.
Lemma resh_l m n (f : nat -> nat -> R) :
  reshape (tab2 m n f) [:: 1%N; m; n] = Ok (tab3 1 m n (fun _ x y => f x y)).
Proof.
apply: reshape_tab' => [||x /inb3P[c [a [b [-> hc ha hb]]]]]; rewrite ?nwf_tab /= ?mul1n ?muln1 //.
exists [:: a; b]; last by rewrite get_tab2.
by case: c hc => //= _; rewrite !muln1 !addn0.
Qed.

(* ---- Omega ---- *)
Lemma omega_rawE nr X mu r1 r2 L Rt : leaf X -> wf_gen nr X -> (mu.+1 < size (tshape X))%N ->
  smat X L (nbl X mu.+1) r1 -> smat X Rt (nbr X mu.+1) r2 ->
  omega_leaf X mu L Rt = Ok (tab2 r1 r2 (raw_omega X mu.+1 L Rt)).
Proof.
rewrite /raw_omega; case: X => [a|s inds vals|cs|cs|fs core|//] _ w hn /andP[wL /eqP sL] /andP[wR /eqP sR];
  rewrite /= in sL sR *.
- rewrite (@matricize_lead _ a mu.+1 true) //=; last by rewrite ltnW.
  rewrite (@matmul22 R L _ r1 (prods (take mu.+1 (nshape a))) (prods (drop mu.+1 (nshape a)))) //= (@matmul22 R _ _ r1 (prods (drop mu.+1 (nshape a))) r2) ?(nshape_tr sR) //; congr Ok; apply: tab2_ext => x y hx hy.
  rewrite exchange_big /=; apply: eq_big_nat => q /andP[_ hq].
  rewrite get_tab2 // big_distrl /=; apply: eq_big_nat => p /andP[_ hp].
  by rewrite get_split // (get_tr sR) // /gv.
- rewrite (nmul_row sL) /= (@matmul22 R _ _ r1 (size vals) r2) ?(nshape_tr sR) //; congr Ok; apply: tab2_ext => x y hx hy.
  apply: eq_big_nat => p /andP[_ hp]; rewrite get_tab2 // (get_tr sR) // /gv /=.
  rewrite (eq_bigr (fun q => (p == q)%:R * (get L [:: x; p] * nth 0 vals p * get Rt [:: y; q]))).
    by rewrite sum_deltal.
  by move=> q _; rewrite mulrCA !mulrA.
- rewrite (matmul22 (nshape_tr sL) sR); congr Ok; apply: tab2_ext => x y hx hy.
  apply: eq_big_nat => p /andP[_ hp]; rewrite (get_tr sL) // /gv /=.
  rewrite (eq_bigr (fun q => (p == q)%:R * (get L [:: p; x] * get Rt [:: q; y]))).
    by rewrite sum_deltal.
  by move=> q _; rewrite mulrAC mulrC.
- rewrite (matmul22 (nshape_tr sL) sR); congr Ok; apply: tab2_ext => x y hx hy.
  apply: eq_big_nat => p /andP[_ hp]; rewrite (get_tr sL) // /gv /=.
  rewrite (eq_bigr (fun q => (p == q)%:R * (get L [:: p; x] * get Rt [:: q; y]))).
    by rewrite sum_deltal.
  by move=> q _; rewrite mulrAC mulrC.
- case/and3P: w => wc /eqP sc _; rewrite size_map in hn.
  rewrite (@matricize_lead _ core mu.+1 true) //=; last by rewrite /ndim sc size_map ltnW.
  rewrite sc -/(tranks fs) (@matmul22 R _ _ r1 (prods (take mu.+1 (tranks fs))) (prods (drop mu.+1 (tranks fs)))) ?(nshape_tr sL) //= (@matmul22 R _ _ r1 (prods (drop mu.+1 (tranks fs))) r2) //.
  congr Ok; apply: tab2_ext => x y hx hy.
  rewrite exchange_big /=; apply: eq_big_nat => q /andP[_ hq].
  rewrite get_tab2 // big_distrl /=; apply: eq_big_nat => p /andP[_ hp].
  have := @get_split core mu.+1 p q; rewrite sc -/(tranks fs) => -> //.
  by rewrite (get_tr sL) // /gv.
Qed.

(* ---- Psi ---- *)
Lemma sum1 (F : nat -> R) : \sum_(0 <= p < 1) F p = F 0%N.
Proof. by rewrite big_nat1. Qed.

Lemma psi_tt_raw cs mu r1 r2 (L Rt : option arr) : wf_tt cs -> (mu < size cs)%N -> (1 < size cs)%N ->
  lmat (TT cs) L mu r1 -> rmat (TT cs) Rt mu.+1 r2 ->
  psi_tt cs mu L Rt = Ok (tab3 r1 (nth 0%N (tsh cs) mu) r2 (raw_psi (TT cs) mu L Rt)).
Proof.
move=> w ml sz hL hR; case/andP: (w) => _ lk; have [wC sC e2 e0] := links_nth lk ml.
rewrite /psi_tt (_ : pyget cs mu = Ok (nth (C0 R) cs mu)); last first.
  by rewrite /pyget (drop_nth (C0 R)).
rewrite (nth_map (C0 R)) // [LHS]/=; rewrite e2 e0 in sC.
case: L Rt hL hR => [L|] [Rt|] /=; rewrite /raw_psi /= size_map.
- case/andP=> _ /andP[_ /eqP sL] /andP[_ /andP[_ /eqP sR]].
  rewrite (es_ij_jkl_lm (nshape_tr sL) sC sR); congr Ok; apply: tab3_ext => x y z hx hy hz.
  apply: eq_big_nat => p /andP[_ hp]; apply: eq_big_nat => q /andP[_ hq].
  by rewrite (get_tr sL) // mulrA.
- case/andP=> _ /andP[_ /eqP sL] /andP[/eqP em /eqP ->].
  have n1 : nth 1%N [seq dim C 0 | C <- cs] mu.+1 = 1%N by rewrite nth_default // size_map em.
  rewrite n1 in sC *; rewrite (es_ij_jkl (nshape_tr sL) sC); congr Ok; apply: tab3_ext => x y z hx hy hz.
  apply: eq_big_nat => p /andP[_ hp]; rewrite sum1 (get_tr sL) // mulr1.
  by case: z hz.
- case/andP=> /eqP m0 /eqP -> /andP[_ /andP[_ /eqP sR]].
  have n1 : nth 1%N [seq dim C 0 | C <- cs] mu = 1%N.
    by move: lk; rewrite m0; case: (cs) => //= C ? /and3P[_ /eqP sC' _]; rewrite /dim sC'.
  rewrite n1 in sC *; rewrite (es_ijk_kl sC sR); congr Ok; apply: tab3_ext => x y z hx hy hz.
  rewrite sum1; apply: eq_big_nat => q /andP[_ hq]; rewrite mul1r.
  by case: x hx.
- by case/andP=> /eqP-> _ /andP[/eqP e _]; move: sz; rewrite -e.
Qed.

Lemma psi_cp_raw cs mu r1 r2 (L Rt : option arr) : wf_cp cs -> (mu < size cs)%N -> (1 < size cs)%N ->
  lmat (CP cs) L mu r1 -> rmat (CP cs) Rt mu.+1 r2 ->
  psi_cp cs mu L Rt = Ok (tab3 r1 (nth 0%N [seq dim C 0 | C <- cs] mu) r2 (raw_psi (CP cs) mu L Rt)).
Proof.
move=> w ml sz hL hR; case/andP: (w) => _ /allP /(_ _ (mem_nth (C0 R) ml)) /andP[wC /eqP sC].
rewrite /psi_cp (_ : pyget cs mu = Ok (nth (C0 R) cs mu)); last first.
  by rewrite /pyget (drop_nth (C0 R)).
rewrite (nth_map (C0 R)) // [LHS]/=.
have dl' (p y : nat) r (F : nat -> R) (c : R) : (p < r)%N ->
  \sum_(0 <= q < r) (c * ((p == q)%:R * get (nth (C0 R) cs mu) [:: y; p])) * F q =
  c * get (nth (C0 R) cs mu) [:: y; p] * F p.
  move=> hp; rewrite (eq_bigr (fun q => (p == q)%:R * (c * get (nth (C0 R) cs mu) [:: y; p] * F q))).
    by rewrite sum_deltal.
  by move=> q _; rewrite mulrCA !mulrA.
case: L Rt hL hR => [L|] [Rt|] /=; rewrite /raw_psi /= size_map.
- case/andP=> _ /andP[_ /eqP sL] /andP[_ /andP[_ /eqP sR]].
  rewrite (es_ij_kj_jm (nshape_tr sL) sC sR); congr Ok; apply: tab3_ext => x y z hx hy hz.
  apply: eq_big_nat => p /andP[_ hp]; rewrite dl' // (get_tr sL) // mulrA //.
- case/andP=> _ /andP[_ /eqP sL] /andP[/eqP em /eqP ->].
  rewrite (es_il_kl (nshape_tr sL) sC) [LHS]/= resh_r; congr Ok.
  apply: tab3_ext => x y z hx hy hz.
  apply: eq_big_nat => p /andP[_ hp]; rewrite (dl' _ _ _ (fun=> 1)) // mulr1 (get_tr sL) //.
- case/andP=> /eqP m0 /eqP -> /andP[_ /andP[_ /eqP sR]].
  rewrite (es_ji_il sC sR) [LHS]/= resh_l; congr Ok.
  apply: tab3_ext => x y z hx hy hz.
  apply: eq_big_nat => p /andP[_ hp]; rewrite (dl' _ _ _ _ 1) // mul1r //.
- by case/andP=> /eqP-> _ /andP[/eqP e _]; move: sz; rewrite -e.
Qed.
End Raw.
