(* Isometries, the norm of a left-orthogonal train (tensor.py:442-444), norm of every
   format (131-134, 241-242). *)
From Coq Require Import String Ascii.
From mathcomp Require Import all_ssreflect all_algebra.
From mathcomp Require Import zify.
From Verif Require Import Py Nd NdThy Ein Utils Tensor Spec LinSpec ChainThy TensorThy TensorThy2.
From Verif Require Import TensorThy4 GatherThy DotThy TensorNum SweepThy.
Set Implicit Arguments. Unset Strict Implicit. Unset Printing Implicit Defensive.
Import GRing.Theory Num.Theory.
Local Open Scope ring_scope.

Definition all_idx (s : seq nat) : seq (seq nat) := map (unravel s) (index_iota 0 (prods s)).
Lemma mem_all_idx s i : i \in all_idx s -> inb s i.
Proof. by case/mapP => p; rewrite mem_index_iota => /andP[_ hp] ->; apply: inb_unravel. Qed.
Lemma sum_idxE (R : comRingType) s (f : seq nat -> R) : sum_idx s f = \sum_(i <- all_idx s) f i.
Proof. by rewrite sum_idx_flat big_map. Qed.

Section Iso.
Variable R : comRingType.

Definition isom (T : eqType) (I : seq T) (r : nat) (L : T -> nat -> R) : Prop :=
  forall l l', (l < r)%N -> (l' < r)%N -> \sum_(i <- I) L i l * L i l' = (l == l')%:R.

Lemma isom_dot (T : eqType) (I : seq T) r (L : T -> nat -> R) (x y : nat -> R) : isom I r L ->
  \sum_(i <- I) (\sum_(0 <= l < r) L i l * x l) * (\sum_(0 <= l < r) L i l * y l)
  = \sum_(0 <= l < r) x l * y l.
Proof.
move=> H; under eq_bigr => i _ do rewrite big_distrl /=.
rewrite exchange_big /=; apply: eq_big_nat => l /= hl.
under eq_bigr => i _ do rewrite mulrAC big_distrr big_distrl /=.
rewrite exchange_big /= -(sum_nat_delta_r (fun l' => x l * y l') hl); apply: eq_big_nat => l' /= hl'.
transitivity (\sum_(i <- I) (L i l * L i l') * (x l * y l')).
  by apply: eq_bigr => i _; rewrite mulrA -mulrA [y _ * _]mulrC.
by rewrite -big_distrl /= H // mulrC eq_sym.
Qed.

Lemma isom_sq (T : eqType) (I : seq T) r (L : T -> nat -> R) (x : nat -> R) : isom I r L ->
  \sum_(i <- I) (\sum_(0 <= l < r) L i l * x l) ^+ 2 = \sum_(0 <= l < r) x l ^+ 2.
Proof.
move=> H; under eq_bigr => i _ do rewrite expr2.
by rewrite isom_dot //; apply: eq_bigr => l _; rewrite expr2.
Qed.

Lemma exch_seq (S T : Type) (I : seq S) (J : seq T) (F : S -> T -> R) :
  \sum_(i <- I) \sum_(j <- J) F i j = \sum_(j <- J) \sum_(i <- I) F i j.
Proof. exact: exchange_big. Qed.

(* Pythagoras for the truncation step of a rounding sweep *)
Lemma pyth (S T : eqType) (I : seq S) (J : seq T) r0 r (L D : S -> nat -> R)
   (V T' : T -> nat -> R) :
  isom I r0 L -> isom J r V ->
  (forall t l, (t < r)%N -> (l < r0)%N -> \sum_(p <- J) V p t * T' p l = 0) ->
  \sum_(i <- I) \sum_(p <- J)
     (\sum_(0 <= t < r) D i t * V p t + \sum_(0 <= l < r0) L i l * T' p l) ^+ 2
  = \sum_(i <- I) \sum_(0 <= t < r) D i t ^+ 2 + \sum_(0 <= l < r0) \sum_(p <- J) T' p l ^+ 2.
Proof.
move=> HL HV HT.
transitivity (\sum_(i <- I) \sum_(p <- J) ((\sum_(0 <= t < r) V p t * D i t) ^+ 2
   + ((\sum_(0 <= t < r) D i t * V p t) * (\sum_(0 <= l < r0) L i l * T' p l)) *+ 2
   + (\sum_(0 <= l < r0) L i l * T' p l) ^+ 2)).
  apply: eq_bigr => i _; apply: eq_bigr => p _; rewrite sqrrD; congr (_ ^+ 2 + _ + _).
  by apply: eq_bigr => t _; rewrite mulrC.
have X0 i : \sum_(p <- J) (\sum_(0 <= t < r) D i t * V p t) * (\sum_(0 <= l < r0) L i l * T' p l) = 0.
  transitivity (\sum_(0 <= t < r) \sum_(0 <= l < r0) \sum_(p <- J) (D i t * L i l) * (V p t * T' p l)).
    under eq_bigr => p _ do rewrite big_distrl /=.
    rewrite exch_seq; apply: eq_bigr => t _.
    under eq_bigr => p _ do rewrite big_distrr /=.
    rewrite exch_seq; apply: eq_bigr => l _; apply: eq_bigr => p _.
    by rewrite mulrACA.
  rewrite big_nat big1 // => t ht; rewrite big_nat big1 // => l hl.
  by rewrite -big_distrr /= HT // mulr0.
under eq_bigr => i _ do rewrite !big_split /= isom_sq // X0 !addr0.
rewrite big_split /=; congr (_ + _).
rewrite exch_seq [RHS]exch_seq; apply: eq_bigr => p _; exact: isom_sq.
Qed.
End Iso.

Section Norm.
Variable R : rcfType.
Notation arr := (nd R).
Notation tensor := (tensor R).
Implicit Types (C : arr) (cs ls : seq arr) (X : tensor).

(* a chain of left-orthogonal cores is an isometry *)
Lemma left_iso r0 ls r : links r0 ls r -> (forall C, C \in ls -> left_orth C) ->
  forall b c, (b < r)%N -> (c < r)%N ->
  \sum_(0 <= a < r0) sum_idx (modes ls) (fun i => chain ls i a b * chain ls i a c) = (b == c)%:R.
Proof.
elim: ls r0 => [|C ls IH] r0 /=.
  move=> /eqP -> _ b c hb hc; rewrite eq_sym -(sum_nat_delta_r (fun a => (a == b)%:R : R) hc) //=.
case/and3P=> wC /eqP sC L O b c hb hc.
have OC : left_orth C by apply: O; rewrite mem_head.
have d0 : dim C 0 = r0 by rewrite /dim sC.
rewrite -(IH _ L _ b c hb hc); last by move=> C' h; apply: O; rewrite in_cons h orbT.
transitivity (\sum_(0 <= a < r0) \sum_(0 <= k < dim C 1) sum_idx (modes ls) (fun i =>
  \sum_(0 <= l < dim C 2) \sum_(0 <= l' < dim C 2)
    get C [:: a; k; l] * get C [:: a; k; l'] * (chain ls i l b * chain ls i l' c))).
  apply: eq_bigr => a _; apply: eq_bigr => k _; apply: eq_sum_idx => i _.
  rewrite big_distrl /=; apply: eq_bigr => l _; rewrite big_distrr /=.
  by apply: eq_bigr => l' _; rewrite mulrACA.
under eq_bigr => a _ do (under eq_bigr => k _ do rewrite sum_idx_big; rewrite exchange_big /=).
rewrite exchange_big /=; apply: eq_big_nat => l hl.
under eq_bigr => a _ do (under eq_bigr => k _ do rewrite sum_idx_big; rewrite exchange_big /=).
rewrite exchange_big /=.
rewrite -(sum_nat_delta_r (fun l' => sum_idx (modes ls) (fun i => chain ls i l b * chain ls i l' c)) hl).
apply: eq_big_nat => l' hl'.
under eq_bigr => a _ do (under eq_bigr => k _ do rewrite sum_idxZ; rewrite -big_distrl /=).
by rewrite -big_distrl /= -d0 OC // mulrC eq_sym.
Qed.

Lemma left_isom ls r : links 1 ls r -> (forall C, C \in ls -> left_orth C) ->
  isom (all_idx (modes ls)) r (fun i l => chain ls i 0 l).
Proof.
move=> L O l l' hl hl'; rewrite -(left_iso L O hl hl') big_nat1 sum_idxE //.
Qed.

Lemma foldr_sq (l : seq R) : foldr (fun x acc => x * x + acc) 0 l = \sum_(x <- l) x ^+ 2.
Proof. by elim: l => [|x l IH]; rewrite ?big_nil ?big_cons //= IH expr2. Qed.

Lemma sqnormE (a : arr) : nwf a -> sqnorm a = sum_idx (nshape a) (fun i => get a i ^+ 2).
Proof.
move=> wa; rewrite /sqnorm foldr_sq -[in LHS](tab_get wa) /= sum_idx_flat big_map.
by rewrite /index_iota subn0.
Qed.

Lemma abl_rcons (P : arr -> Prop) ls C : all_but_last P (rcons ls C) -> forall D, D \in ls -> P D.
Proof.
move=> H D /(nthP (Nd [::] [::]))[k hk <-].
by have := H k; rewrite size_rcons nth_rcons hk ltnS; apply.
Qed.

(* the norm of a left-orthogonal train is the norm of its last core *)
Lemma orth_norm ls C : links 1 (rcons ls C) 1 -> all_but_last (@left_orth R) (rcons ls C) ->
  sqnorm C = sqnorm_of (TT (rcons ls C)).
Proof.
move=> L /abl_rcons O; have [r [Ll wC sC]] := links_rcons L.
have [d0 d1 d2] := dim3 sC.
rewrite sqnormE // /sqnorm_of [tshape _]/= -/(modes _) /modes map_rcons sum_idx_rcons -/(modes _).
rewrite sC /=; under eq_bigr => l _ do under eq_bigr => k _ do rewrite big_nat1.
rewrite sum_idxE exch_seq [RHS]exch_seq; apply: eq_big_nat => k hk.
rewrite -(isom_sq (fun l => get C [:: l; k; 0%N]) (left_isom Ll O)) -[RHS]sum_idxE -[LHS]sum_idxE.
apply: eq_sum_idx => i hi.
have si : size i = size ls by rewrite (inb_size hi) size_map.
by rewrite (chain_rcons _ Ll si (ltn0Sn 0)) ?d2.
Qed.

Lemma inner_sq X : inner X X = sqnorm_of X.
Proof. by rewrite /inner /sqnorm_of; apply: eq_sum_idx => i _; rewrite expr2. Qed.

Lemma sum_idx_ge0 s (f : seq nat -> R) : (forall i, 0 <= f i) -> 0 <= sum_idx s f.
Proof. by move=> H; rewrite sum_idxE; apply: sumr_ge0 => i _. Qed.
Lemma sqnorm_of_ge0 X : 0 <= sqnorm_of X.
Proof. by apply: sum_idx_ge0 => i; apply: sqr_ge0. Qed.

Lemma lnorm_sparse s inds (vals : seq R) : wf (Sparse s inds vals) ->
  lnorm vals = Num.sqrt (sqnorm_of (Sparse s inds vals)).
Proof.
move=> w; rewrite /lnorm; congr Num.sqrt; rewrite foldr_sq.
have [a Ea [sa ga _]] := obs_sparse w; have [a' Ea' [_ _ ga']] := to_numpyE w.
move: Ea'; rewrite Ea => -[E]; subst a'.
have win : wf_inds s inds (size vals) by case/andP: w.
have hin k : (k < size vals)%N -> inb s (column inds k).
  by move=> hk; case/and3P: win => _ _ /allP; apply; rewrite mem_iota.
rewrite -inner_sq /inner [tshape _]/=.
transitivity (sum_idx s (fun i => \sum_(0 <= k < size vals)
   (i == column inds k)%:R * (nth 0 vals k * den (Sparse s inds vals) i))); last first.
  apply: eq_sum_idx => i _; rewrite [X in _ = X * _]/= big_distrl /=.
  by apply: eq_bigr => k _; rewrite mulrA eq_sym.
rewrite sum_idx_big (big_nth 0); apply: eq_big_nat => k hk.
by rewrite (sum_idx_delta _ (hin k hk)) -ga' ?hin // ga // expr2.
Qed.

Variable qr : arr -> res (arr * arr).
Hypothesis qrP : qr_contract qr.

Definition orthogonalized cs out : Prop :=
  [/\ wf_tt out, tshape (TT out) = tshape (TT cs), all2 leq (tt_rank out) (tt_rank cs),
      all_but_last (fun C => left_orth C /\ (dim C 2 <= dim C 0 * dim C 1)%N) out /\ pos_tt out &
      forall i, inb (tshape (TT cs)) i -> den (TT out) i = den (TT cs) i].

Lemma links_rank a cs b : links a cs b -> [seq dim C 0 | C <- cs] = belast a (rdims cs).
Proof.
elim: cs a => [|C cs IH] a //= /and3P[_ /eqP sC L].
by rewrite (IH _ L) {1}/dim sC.
Qed.

Lemma all2_belast (s t : seq nat) a b : (a <= b)%N -> all2 leq s t -> all2 leq (belast a s) (belast b t).
Proof.
elim: s t a b => [|x s IH] [|y t] a b //= ab /andP[xy st].
by rewrite ab IH.
Qed.

Lemma orthogonalizeP cs : wf_tt cs -> pos_tt cs ->
  or_linalg (tt_orthogonalize qr cs) (orthogonalized cs).
Proof.
case: cs => [|C cs] // /andP[_ L] P; rewrite /tt_orthogonalize orth_loopN.
apply: (or_imp (orth_bodyP qrP (ltn0Sn 0) L P)) => out [Lo Mo Ro [Ao Po] Go].
have ne : out != [::] by case: (out) Mo.
split=> //.
- by rewrite /wf_tt Lo andbT; case: (out) ne.
- case: out Lo {Mo Ao Po Go ne} Ro => [|C' out] // Lo Ro; rewrite /tt_rank /=.
  move: Lo L Ro => /= /and3P[_ _ /links_rank ->] /and3P[_ _ /links_rank ->] /andP[h1 h2].
  exact: all2_belast.
- by move=> i hi /=; rewrite Go // Mo.
Qed.

Lemma tt_normP cs : wf_tt cs -> pos_tt cs ->
  or_linalg (tt_norm qr cs) (fun v => v = Num.sqrt (sqnorm_of (TT cs))).
Proof.
move=> w p; rewrite /tt_norm; apply: (or_bind (orthogonalizeP w p)) => out [wo So _ [Ao _] Go].
case/andP: wo => no Lo; case/lastP: out no Lo So Ao Go => [|out C] // _ Lo So Ao Go.
have -> : sqnorm_of (TT cs) = sqnorm_of (TT (rcons out C)).
  by rewrite /sqnorm_of So; apply: eq_sum_idx => i hi; rewrite Go.
case E : (rcons out C) => [|C0 out']; first by case: (out) E.
rewrite /= -[last C0 out']/(last C0 (C0 :: out')) -E last_rcons /nnorm (@orth_norm out C) //.
by move=> k hk; case: (Ao k hk).
Qed.

Lemma tnormP n X : wf X -> (0 < size (tshape X))%N -> (depth X + depth X + 2 < n)%N ->
  (if X is TT cs then pos_tt cs else true) ->
  or_linalg (tnorm qr n X) (fun v => v = Num.sqrt (sqnorm_of X)).
Proof.
move=> w s d; have dE := dotE false w w erefl s d.
have ab : `|inner X X| = sqnorm_of X by rewrite inner_sq ger0_norm // sqnorm_of_ge0.
case: X w s d dE ab => [a|sh i v|cs|cs|fs c|sh Xs] w s d dE ab p; rewrite /tnorm ?dE /= ?ab //.
- exact: lnorm_sparse.
- exact: tt_normP.
Qed.

Lemma sqnorm_obs X a : wf X -> to_numpy X = Ok a ->
  sqnorm_of X = sum_idx (nshape a) (fun i => get a i ^+ 2).
Proof.
move=> w /(to_numpy_rep w)[_ sa ga]; rewrite /sqnorm_of sa.
by apply: eq_sum_idx => i hi; rewrite ga.
Qed.
End Norm.
