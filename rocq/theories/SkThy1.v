(* Bond decompositions of the storage formats: every format writes the represented tensor as
   sum_{p,q} lfac(p, left modes) * bond(p,q) * rfac(q, right modes).  Used in the proofs about
   the sketching methods. *)
From Coq Require Import String Ascii NArith.
From mathcomp Require Import all_ssreflect all_algebra.
From mathcomp Require Import zify.
From Verif Require Import Py Nd NdThy Ein Utils Tensor Hash Sketch SkSpec Spec ChainThy TensorThy TensorThy2 GatherThy.
Set Implicit Arguments. Unset Strict Implicit. Unset Printing Implicit Defensive.
Import GRing.Theory.
Local Open Scope ring_scope.

Section Bond.
Variable R : comRingType.
Notation arr := (nd R).
Notation tensor := (tensor R).
Implicit Types (X : tensor) (cs : seq arr) (i j : seq nat) (n p q k : nat).

Notation C0 := (C0 R).
Definition leaf X : bool := if X is TSum _ _ then false else true.
Definition tranks (fs : seq arr) := [seq dim U 0 | U <- fs].

Definition cprod (cs : seq arr) i p : R := \prod_(x <- zip cs i) get x.1 [:: x.2; p].
Definition tprod (fs : seq arr) j i : R := \prod_(x <- zip fs (zip j i)) get x.1 [:: x.2.1; x.2.2].

Definition nbl X n : nat :=
  match X with
  | TT cs => nth 1%N [seq dim C 0 | C <- cs] n
  | CP cs => dim (head C0 cs) 1
  | Sparse _ _ vals => size vals
  | Dense a => prods (take n (nshape a))
  | Tucker fs _ => prods (take n (tranks fs))
  | TSum _ _ => 0%N
  end.
Definition nbr X n : nat :=
  match X with
  | TT cs => nth 1%N [seq dim C 0 | C <- cs] n
  | CP cs => dim (head C0 cs) 1
  | Sparse _ _ vals => size vals
  | Dense a => prods (drop n (nshape a))
  | Tucker fs _ => prods (drop n (tranks fs))
  | TSum _ _ => 0%N
  end.
Definition lfac X n p i : R :=
  match X with
  | TT cs => chain (take n cs) i 0 p
  | CP cs => cprod (take n cs) i p
  | Sparse _ inds _ => (take n (column inds p) == i)%:R
  | Dense a => (ravel (take n (nshape a)) i == p)%:R
  | Tucker fs _ => tprod (take n fs) (unravel (take n (tranks fs)) p) i
  | TSum _ _ => 0
  end.
Definition rfac X n q j : R :=
  match X with
  | TT cs => chain (drop n cs) j q 0
  | CP cs => cprod (drop n cs) j q
  | Sparse _ inds _ => (drop n (column inds q) == j)%:R
  | Dense a => (ravel (drop n (nshape a)) j == q)%:R
  | Tucker fs _ => tprod (drop n fs) (unravel (drop n (tranks fs)) q) j
  | TSum _ _ => 0
  end.
Definition bond X n p q : R :=
  match X with
  | TT _ | CP _ => (p == q)%:R
  | Sparse _ _ vals => (p == q)%:R * nth 0 vals p
  | Dense a => get a (unravel (take n (nshape a)) p ++ unravel (drop n (nshape a)) q)
  | Tucker fs core => get core (unravel (take n (tranks fs)) p ++ unravel (drop n (tranks fs)) q)
  | TSum _ _ => 0
  end.
Definition mid X n p k q : R :=
  match X with
  | TT cs => get (nth C0 cs n) [:: p; k; q]
  | CP cs => (p == q)%:R * get (nth C0 cs n) [:: k; p]
  | Sparse _ inds vals => (p == q)%:R * ((nth 0%N (nth [::] inds n) p == k)%:R * nth 0 vals p)
  | Dense a => get a (unravel (take n (nshape a)) p ++ k :: unravel (drop n.+1 (nshape a)) q)
  | Tucker fs core => \sum_(0 <= m < dim (nth C0 fs n) 0)
      get core (unravel (take n (tranks fs)) p ++ m :: unravel (drop n.+1 (tranks fs)) q)
      * get (nth C0 fs n) [:: m; k]
  | TSum _ _ => 0
  end.

Lemma sum_deltal n k (f : nat -> R) : (k < n)%N ->
  \sum_(0 <= q < n) (k == q)%:R * f q = f k.
Proof. by move=> h; rewrite -[RHS](sum_nat_delta f h); apply: eq_bigr => q _; rewrite eq_sym. Qed.

(* ---- tensor trains ---- *)
Lemma links_split a cs b n : links a cs b -> (n <= size cs)%N ->
  exists r, [/\ links a (take n cs) r, links r (drop n cs) b & r = nth b [seq dim C 0 | C <- cs] n].
Proof.
move=> L nl; have [r [L1 L2]] : exists r, links a (take n cs) r /\ links r (drop n cs) b.
  by move: L; rewrite -{1}(cat_take_drop n cs) => /links_cat[r [? ?]]; exists r.
exists r; split=> //; case: (ltnP n (size cs)) => [nl'|nl']; last first.
  by rewrite nth_default ?size_map //; move: L2; rewrite drop_oversize //= => /eqP.
move: L2; rewrite (drop_nth C0) //= => /and3P[_ /eqP sC _].
by rewrite (nth_map C0) // /dim sC.
Qed.

Lemma links_nth a cs b n : links a cs b -> (n < size cs)%N ->
  let C := nth C0 cs n in [/\ nwf C, nshape C = [:: dim C 0; dim C 1; dim C 2],
    dim C 2 = nth b [seq dim C 0 | C <- cs] n.+1 & dim C 0 = nth b [seq dim C 0 | C <- cs] n].
Proof.
move=> L nl C; have [r [_ L2 _]] := links_split L (ltnW nl).
move: L2; rewrite (drop_nth C0) //= -/C => /and3P[wC /eqP sC L2].
have e0 : dim C 0 = r by rewrite /dim sC.
split=> //; first by rewrite e0.
- have [r'' [L4 L5 e]] := links_split L nl.
  rewrite -e; move: L2 L5; case: (drop n.+1 cs) => [|D l] /=; first by move=> /eqP-> /eqP->.
  by case/and3P=> _ /eqP e1 _ /and3P[_ /eqP e2 _]; move: e1; rewrite e2 => -[].
- by rewrite (nth_map C0).
Qed.

Lemma size_inb_tt (cs : seq arr) i : inb (tsh cs) i -> size i = size cs.
Proof. by move/inb_size; rewrite size_map. Qed.

Lemma den_bond_tt cs n i j : wf_tt cs -> (n <= size cs)%N ->
  inb (take n (tsh cs)) i -> inb (drop n (tsh cs)) j ->
  den (TT cs) (i ++ j) = \sum_(0 <= p < nbl (TT cs) n) \sum_(0 <= q < nbr (TT cs) n)
     lfac (TT cs) n p i * bond (TT cs) n p q * rfac (TT cs) n q j.
Proof.
case/andP=> _ L nl hi hj; have [r [L1 L2 er]] := links_split L nl.
rewrite /= -{1}(cat_take_drop n cs) (chain_cat _ _ _ L1) //; last first.
  by have := inb_size hi; rewrite -map_take size_map.
rewrite -er; apply: eq_big_nat => p /andP[_ hp].
rewrite (eq_bigr (fun q => (p == q)%:R * (chain (take n cs) i 0 p * chain (drop n cs) j q 0))).
  by rewrite sum_deltal.
by move=> q _; rewrite mulrAC mulrC.
Qed.

Lemma den_mid_tt cs n i k j : wf_tt cs -> (n < size cs)%N ->
  inb (take n (tsh cs)) i -> (k < nth 0%N (tsh cs) n)%N -> inb (drop n.+1 (tsh cs)) j ->
  den (TT cs) (i ++ k :: j) = \sum_(0 <= p < nbl (TT cs) n) \sum_(0 <= q < nbr (TT cs) n.+1)
     lfac (TT cs) n p i * mid (TT cs) n p k q * rfac (TT cs) n.+1 q j.
Proof.
case/andP=> _ L nl hi hk hj; have [r [L1 L2 er]] := links_split L (ltnW nl).
have [wC sC e2 e0] := links_nth L nl.
rewrite /= -{1}(cat_take_drop n cs) (chain_cat _ _ _ L1) //; last first.
  by have := inb_size hi; rewrite -map_take size_map.
rewrite -er; apply: eq_big_nat => p /andP[_ hp].
rewrite (drop_nth C0) //= -e2 big_distrr /=; apply: eq_bigr => q _.
by rewrite mulrA.
Qed.

(* ---- CP ---- *)
Lemma cprod_cat (cs ds : seq arr) i j p : size i = size cs ->
  cprod (cs ++ ds) (i ++ j) p = cprod cs i p * cprod ds j p.
Proof. by move=> e; rewrite /cprod zip_cat // big_cat. Qed.

Lemma den_bond_cp cs n i j : (n <= size cs)%N ->
  inb (take n [seq dim C 0 | C <- cs]) i ->
  den (CP cs) (i ++ j) = \sum_(0 <= p < nbl (CP cs) n) \sum_(0 <= q < nbr (CP cs) n)
     lfac (CP cs) n p i * bond (CP cs) n p q * rfac (CP cs) n q j.
Proof.
move=> nl hi; rewrite /=; apply: eq_big_nat => p /andP[_ hp].
rewrite -/(cprod cs (i ++ j) p) -{1}(cat_take_drop n cs) cprod_cat; last first.
  by have := inb_size hi; rewrite -map_take size_map.
rewrite (eq_bigr (fun q => (p == q)%:R * (cprod (take n cs) i p * cprod (drop n cs) j q))).
  by rewrite sum_deltal.
by move=> q _; rewrite mulrAC mulrC.
Qed.

Lemma den_mid_cp cs n i k j : (n < size cs)%N ->
  inb (take n [seq dim C 0 | C <- cs]) i ->
  den (CP cs) (i ++ k :: j) = \sum_(0 <= p < nbl (CP cs) n) \sum_(0 <= q < nbr (CP cs) n.+1)
     lfac (CP cs) n p i * mid (CP cs) n p k q * rfac (CP cs) n.+1 q j.
Proof.
move=> nl hi; rewrite /=; apply: eq_big_nat => p /andP[_ hp].
rewrite -/(cprod cs (i ++ k :: j) p) -{1}(cat_take_drop n cs) cprod_cat; last first.
  by have := inb_size hi; rewrite -map_take size_map.
rewrite (drop_nth C0) // {2}/cprod /= big_cons -/(cprod _ _ _) /=.
rewrite (eq_bigr (fun q => (p == q)%:R *
  (cprod (take n cs) i p * get (nth C0 cs n) [:: k; p] * cprod (drop n.+1 cs) j q))).
  by rewrite sum_deltal // mulrA.
by move=> q _; rewrite mulrCA !mulrA.
Qed.

(* ---- sparse ---- *)
Lemma eq_cat_sz (T : eqType) (s1 s2 t1 t2 : seq T) : size s1 = size t1 ->
  (s1 ++ s2 == t1 ++ t2) = (s1 == t1) && (s2 == t2).
Proof. by move=> e; rewrite eqseq_cat. Qed.

Lemma size_column inds k : size (column inds k) = size inds. Proof. exact: size_map. Qed.

Lemma den_bond_sp s inds (vals : seq R) n i j : size inds = size s -> (n <= size s)%N ->
  inb (take n s) i ->
  let X := Sparse s inds vals in
  den X (i ++ j) = \sum_(0 <= p < nbl X n) \sum_(0 <= q < nbr X n)
     lfac X n p i * bond X n p q * rfac X n q j.
Proof.
move=> es nl hi /=; apply: eq_big_nat => p /andP[_ hp].
rewrite (eq_bigr (fun q => (p == q)%:R * ((take n (column inds p) == i)%:R * nth 0 vals p *
   (drop n (column inds q) == j)%:R))); last first.
  by move=> q _; rewrite mulrCA !mulrA.
rewrite sum_deltal // -{1}(cat_take_drop n (column inds p)) eq_cat_sz; last first.
  by rewrite (inb_size hi) !size_takel // size_column es.
by rewrite -mulnb natrM -!mulrA; congr (_ * _); rewrite mulrC.
Qed.

Lemma den_mid_sp s inds (vals : seq R) n i k j : size inds = size s -> (n < size s)%N ->
  inb (take n s) i ->
  let X := Sparse s inds vals in
  den X (i ++ k :: j) = \sum_(0 <= p < nbl X n) \sum_(0 <= q < nbr X n.+1)
     lfac X n p i * mid X n p k q * rfac X n.+1 q j.
Proof.
move=> es nl hi /=; apply: eq_big_nat => p /andP[_ hp].
rewrite (eq_bigr (fun q => (p == q)%:R * ((take n (column inds p) == i)%:R *
   ((nth 0%N (nth [::] inds n) p == k)%:R * nth 0 vals p) *
   (drop n.+1 (column inds q) == j)%:R))); last first.
  by move=> q _; rewrite mulrCA !mulrA.
rewrite sum_deltal // -{1}(cat_take_drop n (column inds p)) eq_cat_sz; last first.
  by rewrite (inb_size hi) !size_takel ?size_column ?es // ltnW.
rewrite (drop_nth 0%N) ?size_column ?es // eqseq_cons (nth_map [::]) ?es //.
rewrite -!mulnb !natrM -!mulrA; congr (_ * (_ * _)); exact: mulrC.
Qed.

(* ---- dense ---- *)
Lemma sum_ravel_delta s i (F : seq nat -> R) : inb s i ->
  \sum_(0 <= p < prods s) (ravel s i == p)%:R * F (unravel s p) = F i.
Proof. by move=> hi; rewrite sum_deltal ?ravel_lt // unravelK. Qed.

Lemma den_bond_de (a : arr) n i j : (n <= ndim a)%N ->
  inb (take n (nshape a)) i -> inb (drop n (nshape a)) j ->
  let X := Dense a in
  den X (i ++ j) = \sum_(0 <= p < nbl X n) \sum_(0 <= q < nbr X n)
     lfac X n p i * bond X n p q * rfac X n q j.
Proof.
move=> nl hi hj /=.
rewrite (eq_bigr (fun p => (ravel (take n (nshape a)) i == p)%:R *
   get a (unravel (take n (nshape a)) p ++ j))).
  by rewrite (@sum_ravel_delta _ _ (fun x => get a (x ++ j))).
move=> p _; rewrite (eq_bigr (fun q => (ravel (take n (nshape a)) i == p)%:R *
  ((ravel (drop n (nshape a)) j == q)%:R * get a (unravel (take n (nshape a)) p ++
     unravel (drop n (nshape a)) q)))); last by move=> q _; rewrite -mulrA [_ * (_ == _)%:R]mulrC.
rewrite -big_distrr /=; congr (_ * _).
by rewrite (@sum_ravel_delta _ _ (fun x => get a (_ ++ x))).
Qed.

Lemma den_mid_de (a : arr) n i k j : (n < ndim a)%N ->
  inb (take n (nshape a)) i -> inb (drop n.+1 (nshape a)) j ->
  let X := Dense a in
  den X (i ++ k :: j) = \sum_(0 <= p < nbl X n) \sum_(0 <= q < nbr X n.+1)
     lfac X n p i * mid X n p k q * rfac X n.+1 q j.
Proof.
move=> nl hi hj /=.
rewrite (eq_bigr (fun p => (ravel (take n (nshape a)) i == p)%:R *
   get a (unravel (take n (nshape a)) p ++ k :: j))).
  by rewrite (@sum_ravel_delta _ _ (fun x => get a (x ++ k :: j))).
move=> p _; rewrite (eq_bigr (fun q => (ravel (take n (nshape a)) i == p)%:R *
  ((ravel (drop n.+1 (nshape a)) j == q)%:R * get a (unravel (take n (nshape a)) p ++
     k :: unravel (drop n.+1 (nshape a)) q)))); last by move=> q _; rewrite -mulrA [_ * (_ == _)%:R]mulrC.
rewrite -big_distrr /=; congr (_ * _).
by rewrite (@sum_ravel_delta _ _ (fun x => get a (_ ++ k :: x))).
Qed.

(* ---- Tucker ---- *)
Lemma tprod_cat (fs gs : seq arr) j1 j2 i1 i2 : size j1 = size fs -> size i1 = size fs ->
  tprod (fs ++ gs) (j1 ++ j2) (i1 ++ i2) = tprod fs j1 i1 * tprod gs j2 i2.
Proof.
by move=> e1 e2; rewrite /tprod zip_cat ?e1 // zip_cat ?big_cat // size_zip e1 e2 minnn.
Qed.

Lemma den_bond_tk (fs : seq arr) core n i j : wf_tucker fs core -> (n <= size fs)%N ->
  inb (take n [seq dim U 1 | U <- fs]) i ->
  let X := Tucker fs core in
  den X (i ++ j) = \sum_(0 <= p < nbl X n) \sum_(0 <= q < nbr X n)
     lfac X n p i * bond X n p q * rfac X n q j.
Proof.
case/and3P=> _ /eqP sc _ nl hi /=.
rewrite sc -/(tranks fs) -{1}(cat_take_drop n (tranks fs)) sum_idx_cat sum_idx_flat.
apply: eq_big_nat => p /andP[_ hp]; rewrite sum_idx_flat.
apply: eq_big_nat => q /andP[_ hq]; rewrite -/(tprod fs _ _) -[X in tprod X](cat_take_drop n fs) tprod_cat.
- by rewrite mulrCA -!mulrA.
- by rewrite (inb_size (inb_unravel hp)) -map_take size_map.
- by rewrite (inb_size hi) -map_take size_map.
Qed.

Lemma den_mid_tk (fs : seq arr) core n i k j : wf_tucker fs core -> (n < size fs)%N ->
  inb (take n [seq dim U 1 | U <- fs]) i ->
  let X := Tucker fs core in
  den X (i ++ k :: j) = \sum_(0 <= p < nbl X n) \sum_(0 <= q < nbr X n.+1)
     lfac X n p i * mid X n p k q * rfac X n.+1 q j.
Proof.
case/and3P=> _ /eqP sc _ nl hi /=.
have ed : drop n (tranks fs) = dim (nth C0 fs n) 0 :: drop n.+1 (tranks fs).
  by rewrite (drop_nth 0%N) ?size_map // (nth_map C0).
rewrite sc -/(tranks fs) -{1}(cat_take_drop n (tranks fs)) sum_idx_cat sum_idx_flat.
apply: eq_big_nat => p /andP[_ hp]; rewrite ed /=.
rewrite (eq_bigr (fun m => \sum_(0 <= q < prods (drop n.+1 (tranks fs)))
   tprod (take n fs) (unravel (take n (tranks fs)) p) i *
   (get core (unravel (take n (tranks fs)) p ++ m :: unravel (drop n.+1 (tranks fs)) q)
      * get (nth C0 fs n) [:: m; k]) *
   tprod (drop n.+1 fs) (unravel (drop n.+1 (tranks fs)) q) j)).
  rewrite exchange_big /=; apply: eq_bigr => q _.
  by rewrite big_distrr big_distrl.
move=> m _; rewrite sum_idx_flat; apply: eq_big_nat => q /andP[_ hq].
rewrite -/(tprod fs _ _) -[X in tprod X](cat_take_drop n fs) tprod_cat.
- rewrite (drop_nth C0) // {2}/tprod /= big_cons -/(tprod _ _ _) /=.
  rewrite -!mulrA mulrCA; congr (_ * (_ * _)).
- by rewrite (inb_size (inb_unravel hp)) -map_take size_map.
- by rewrite (inb_size hi) -map_take size_map.
Qed.

(* ---- all leaves ---- *)
Lemma den_bond nr X n i j : leaf X -> wf_gen nr X -> (n <= size (tshape X))%N ->
  inb (take n (tshape X)) i -> inb (drop n (tshape X)) j ->
  den X (i ++ j) = \sum_(0 <= p < nbl X n) \sum_(0 <= q < nbr X n)
     lfac X n p i * bond X n p q * rfac X n q j.
Proof.
case: X => [a|s inds vals|cs|cs|fs core|//] _ w nl hi hj.
- exact: den_bond_de.
- by apply: den_bond_sp => //; case/andP: w => /and3P[/eqP].
- by apply: den_bond_tt => //; move: nl; rewrite /= size_map.
- by apply: den_bond_cp => //; move: nl; rewrite /= size_map.
- by apply: den_bond_tk => //; move: nl; rewrite /= size_map.
Qed.

Lemma den_mid nr X n i k j : leaf X -> wf_gen nr X -> (n < size (tshape X))%N ->
  inb (take n (tshape X)) i -> (k < nth 0%N (tshape X) n)%N -> inb (drop n.+1 (tshape X)) j ->
  den X (i ++ k :: j) = \sum_(0 <= p < nbl X n) \sum_(0 <= q < nbr X n.+1)
     lfac X n p i * mid X n p k q * rfac X n.+1 q j.
Proof.
case: X => [a|s inds vals|cs|cs|fs core|//] _ w nl hi hk hj.
- exact: den_mid_de.
- by apply: den_mid_sp => //; case/andP: w => /and3P[/eqP].
- by apply: den_mid_tt => //; move: nl; rewrite /= size_map.
- by apply: den_mid_cp => //; move: nl; rewrite /= size_map.
- by apply: den_mid_tk => //; move: nl; rewrite /= size_map.
Qed.
End Bond.
