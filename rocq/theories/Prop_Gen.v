(* C48: generated test tensors.  C49: projector. *)
From Coq Require Import String Ascii NArith.
From mathcomp Require Import all_ssreflect all_algebra.
From mathcomp Require Import zify.
From Verif Require Import Py Nd NdThy Ein Spec LinSpec ChainThy NormThy TensorNum RecSpec SkThy2 RoundThy RoundThy2 RecThy2 PrecThy
  LinThy LinExist UtilsNum GenSpec.
Set Implicit Arguments. Unset Strict Implicit. Unset Printing Implicit Defensive.
Import GRing.Theory Num.Theory.
Local Open Scope ring_scope.

Section Gen.
Variable R : rcfType.
Notation arr := (nd R).

Lemma swapK (A : Type) (s : seq A) : swap01 (swap01 s) = s.
Proof. by case: s => [|x [|y s]]. Qed.
Lemma inb_swap s i : inb (swap01 s) (swap01 i) = inb s i.
Proof.
case: s => [|x [|y s]]; case: i => [|u [|v i]] //=; rewrite ?andbF //.
by rewrite !andbA [(v < y)%N && _]andbC.
Qed.
Lemma size_swap (A : Type) (s : seq A) : size (swap01 s) = size s.
Proof. by case: s => [|x [|y s]]. Qed.

Lemma stackS (xs : seq arr) : xs != [::] ->
  nshape (stacked (meshgrid xs)) = size xs :: swap01 [seq dim x 0 | x <- xs].
Proof. by case: xs => // x xs _; rewrite /stacked /= size_map size_iota. Qed.

Lemma mesh_sum (xs : seq arr) i : xs != [::] -> inb (swap01 [seq dim x 0 | x <- xs]) i ->
  get (sum_axis0 (stacked (meshgrid xs))) i = \sum_(0 <= k < size xs) get (nth (Nd [::] [::]) xs k) [:: nth 0%N (swap01 i) k].
Proof.
move=> x0 hi; have sn := stackS x0; set s := swap01 _ in hi sn *.
have sz : size (meshgrid xs) = size xs by rewrite size_map size_iota.
rewrite /sum_axis0 get_tab ?sn // /dim sn /= sumrE; apply: eq_big_nat => k /andP[_ hk].
rewrite {1}/stacked get_tab; last by move: sn; rewrite {1}/stacked; cbn [nshape tab] => -> /=; rewrite hk.
by rewrite /= (nth_map 0%N) ?size_iota // nth_iota // add0n get_tab.
Qed.

Lemma sum0_stackedE (xs : seq arr) : xs != [::] ->
  sum_axis0 (stacked (meshgrid xs)) = tab (swap01 [seq dim x 0 | x <- xs])
   (fun i => \sum_(0 <= k < size xs) get (nth (Nd [::] [::]) xs k) [:: nth 0%N (swap01 i) k]).
Proof.
move=> x0; have sn := stackS x0.
have s2 : nshape (sum_axis0 (stacked (meshgrid xs))) = swap01 [seq dim x 0 | x <- xs] by rewrite /sum_axis0; cbn [nshape tab]; rewrite sn.
apply: nd_ext; [exact: nwf_tab|exact: nwf_tab|by []|].
by rewrite s2 => i hi; rewrite mesh_sum // get_tab.
Qed.

(* hilbert_tensor(d, n) has d modes of size n and entries 1/(1 + i_1 + ... + i_d), for all d and n *)
Theorem C48_hilbert d n : let H := hilbert_tensor R d n in
  [/\ nwf H, nshape H = nseq d n & forall i, inb (nseq d n) i -> get H i = (1 + sumn i)%:R^-1].
Proof.
have sw : swap01 (nseq d n) = nseq d n by case: d => [|[|d]].
case: d sw => [_|d sw].
  split; [exact: nwf_tab|by []|case=> //= _].
  by rewrite /hilbert_tensor /nmap get_tab //= /sum_axis0 get_tab //= add0r div1r addn0.
have e : [seq dim x 0 | x <- nseq d.+1 (arange R n)] = nseq d.+1 n by rewrite map_nseq.
rewrite /hilbert_tensor sum0_stackedE //.
rewrite e sw size_nseq; split; [exact: nwf_tab|by []|move=> i hi].
rewrite /nmap get_tab // get_tab // div1r natrD addrC; congr (_ + _)^-1.
have si := inb_size hi; rewrite size_nseq in si.
have -> : sumn i = (\sum_(0 <= k < d.+1) nth 0%N i k)%N by rewrite -si sumnE -(big_nth 0%N xpredT id).
rewrite natr_sum.
have -> : \sum_(0 <= k < d.+1) get (nth (Nd [::] [::]) (nseq d.+1 (arange R n)) k) [:: nth 0%N (swap01 i) k]
  = \sum_(0 <= k < d.+1) (nth 0%N (swap01 i) k)%:R.
  apply: eq_big_nat => k /andP[_ hk]; rewrite nth_nseq hk get_tab //=.
  have := inbP _ _ hi; rewrite size_nseq => -[_ H].
  have : inb (swap01 (nseq d.+1 n)) (swap01 i) by rewrite inb_swap.
  by rewrite sw => /(@inb_nth _ _ k); rewrite size_nseq nth_nseq hk => /(_ isT) ->.
case: d {e sw hi} si => [|d] si; first by case: i si => [|x []].
by case: i si => [|x [|y i]] // _; rewrite !big_nat_recl //= addrCA.
Qed.

Let pts (a b : R) (shape : seq nat) := [seq linspace a b s | s <- shape].

Lemma pts_sum (a b : R) shape i : shape != [::] -> inb shape i ->
  \sum_(0 <= k < size shape) get (nth (Nd [::] [::]) (pts a b shape) k) [:: nth 0%N i k] = grid_sum a b shape i.
Proof.
move=> _; rewrite /grid_sum; elim: shape i => [|n s IH] [|j i] //=; first by rewrite big_nil big_geq.
move=> /andP[hj hi]; rewrite big_nat_recl // big_cons /= IH //; congr (_ + _).
rewrite get_tab ?inb1 //= ?hj // /grid_point; case: n hj => [|[|n]] // _ /=.
by rewrite mulrCA -[in RHS](natrB _ (ltn0Sn _)) subn1.
Qed.

Lemma sqrtE (shape : seq nat) (a b : R) : shape != [::] ->
  let N2 := sum_idx shape (fun i => `|grid_sum a b shape i|) in
  sqrt_tensor shape a b = if (N2 == 0) && (0 < prods shape)%N then Err NonFinite else
   Ok (tab (swap01 shape) (fun i => Num.sqrt `|grid_sum a b shape (swap01 i)| / Num.sqrt N2)).
Proof.
move=> s0 N2; rewrite /sqrt_tensor.
have -> : nilp (meshgrid [seq linspace a b s | s <- shape]) = false.
  by case: (shape) s0.
have p0 : pts a b shape != [::] by case: (shape) s0.
have e : [seq dim x 0 | x <- pts a b shape] = shape by rewrite -map_comp map_id_in.
rewrite (sum0_stackedE p0) e.
have -> : nmap (fun x => Num.sqrt `|x|) (tab (swap01 shape) (fun i => \sum_(0 <= k < size (pts a b shape))
     get (nth (Nd [::] [::]) (pts a b shape) k) [:: nth 0%N (swap01 i) k])) =
   tab (swap01 shape) (fun i => Num.sqrt `|grid_sum a b shape (swap01 i)|).
  apply: tab_ext => i hi; rewrite get_tab // size_map pts_sum //.
  by rewrite -inb_swap swapK.
set X := tab _ _.
have nX : sqnorm X = N2.
  rewrite sqnormE ?nwf_tab // /X /=.
  have -> : sum_idx (swap01 shape) (fun i => get (tab (swap01 shape) (fun j => Num.sqrt `|grid_sum a b shape (swap01 j)|)) i ^+ 2)
     = sum_idx (swap01 shape) (fun i => `|grid_sum a b shape (swap01 i)|).
    by apply: eq_sum_idx => i hi; rewrite get_tab // sqr_sqrtr ?normr_ge0.
  rewrite /N2; case: (shape) => [|m [|n s]] //=.
  by rewrite exchange_big_nat.
rewrite nX sqrtr_eq0.
have -> : (N2 <= 0) = (N2 == 0) by rewrite Order.POrderTheory.eq_le sum_idx_ge0 ?andbT // => i; exact: normr_ge0.
have -> : nilp (ndata X) = ~~ (0 < prods shape)%N.
  have ps : prods (swap01 shape) = prods shape by case: (shape) => [|m [|n s]] //=; rewrite mulnCA.
  by rewrite /X /= /nilp size_map size_iota ps lt0n negbK.
rewrite negbK; case: ifP => // _; congr Ok; apply: tab_ext => i hi.
by rewrite /X get_tab.
Qed.

Lemma all0 shape (f : seq nat -> R) : sum_idx shape (fun i => `|f i|) = 0 -> forall i, inb shape i -> f i = 0.
Proof.
by move=> /sum_idx_eq0 h i hi; apply/eqP; rewrite -normr_eq0; apply/eqP/h => // j; exact: normr_ge0.
Qed.

Lemma unit_norm shape (f : seq nat -> R) (N2 := sum_idx shape (fun i => `|f i|)) : N2 != 0 ->
  sum_idx shape (fun i => (Num.sqrt `|f i| / Num.sqrt N2) ^+ 2) = 1.
Proof.
move=> n0; have p : 0 <= N2 by apply: sum_idx_ge0 => i; exact: normr_ge0.
transitivity (sum_idx shape (fun i => `|f i| * N2^-1)); last by rewrite sum_idxZr divff.
by apply: eq_sum_idx => i _; rewrite expr_div_n !sqr_sqrtr.
Qed.

(* What sqrt_tensor(shape, a, b) returns for one mode, and for two or more modes: the entry at
   (j, i, k...) of the result is the documented value at (i, j, k...); the shape is
   (n, m, s...) for the requested (m, n, s...).  It is normalised to unit Frobenius norm (unless
   empty).  It fails (nan) exactly when every grid sum is zero. *)
Theorem C48_sqrt_values m n s (a b : R) : let shape := m :: n :: s in
  let v := fun i => Num.sqrt `|grid_sum a b shape i| in
  match sqrt_tensor shape a b with
  | Ok X => [/\ nwf X, nshape X = n :: m :: s,
       forall i j k, inb shape [:: i, j & k] ->
         get X [:: j, i & k] = v [:: i, j & k] / Num.sqrt (sum_idx shape (fun l => v l ^+ 2)) &
       (0 < prods shape)%N -> sum_idx (nshape X) (fun l => get X l ^+ 2) = 1]
  | Err e => e = NonFinite /\ (0 < prods shape)%N /\ forall i, inb shape i -> grid_sum a b shape i = 0
  end.
Proof.
move=> shape v; rewrite sqrtE //; set N2 := sum_idx _ _.
have -> : sum_idx shape (fun l => v l ^+ 2) = N2.
  by apply: eq_sum_idx => l _; rewrite /v sqr_sqrtr ?normr_ge0.
case: ifP => [/andP[/eqP h0 hp]|hN].
  by split=> //; split=> //; apply: all0.
split; [exact: nwf_tab|by []| |].
  move=> i j k hi; rewrite get_tab //; first by rewrite -inb_swap.
move=> hp; move: hN; rewrite hp andbT => /negbT hN.
rewrite -[RHS](unit_norm hN) -/N2.
transitivity (sum_idx (swap01 shape) (fun i => (Num.sqrt `|grid_sum a b shape (swap01 i)| / Num.sqrt N2) ^+ 2)).
  by apply: eq_sum_idx => l hl; rewrite get_tab.
by rewrite /shape /=; rewrite exchange_big_nat.
Qed.

Theorem C48_sqrt_values1 n (a b : R) :
  let v := fun i => Num.sqrt `|grid_sum a b [:: n] i| in
  match sqrt_tensor [:: n] a b with
  | Ok X => [/\ nwf X, nshape X = [:: n],
       forall i, (i < n)%N ->
         get X [:: i] = v [:: i] / Num.sqrt (sum_idx [:: n] (fun l => v l ^+ 2)) &
       (0 < n)%N -> sum_idx (nshape X) (fun l => get X l ^+ 2) = 1]
  | Err e => e = NonFinite /\ (0 < n)%N /\ forall i, inb [:: n] i -> grid_sum a b [:: n] i = 0
  end.
Proof.
move=> v; rewrite sqrtE //; set N2 := sum_idx _ _.
have -> : sum_idx [:: n] (fun l => v l ^+ 2) = N2.
  by apply: eq_sum_idx => l _; rewrite /v sqr_sqrtr ?normr_ge0.
rewrite /= muln1; case: ifP => [/andP[/eqP h0 hp]|hN].
  split=> //; split=> // i hi; exact: (all0 (shape := [:: n]) h0 hi).
split; [exact: nwf_tab|by []| |].
  by move=> i hi; rewrite get_tab // /= hi.
move=> hp; move: hN; rewrite hp andbT => /negbT hN.
rewrite -[RHS](unit_norm hN) -/N2.
rewrite /= big_nat [RHS]big_nat; apply: eq_bigr => l hl; rewrite get_tab //=; case/andP: hl => _ ->.
by [].
Qed.

(* sqrt_tensor(()) raises ValueError *)
Theorem C48_sqrt_no_modes (a b : R) : sqrt_tensor [::] a b = Err ValueError.
Proof. by []. Qed.

(* The requested shape is returned iff the first two sizes agree; then so are the documented values *)
Theorem C48_sqrt_shape_iff m n s (a b : R) X : sqrt_tensor [:: m, n & s] a b = Ok X ->
  (nshape X = [:: m, n & s] <-> m = n).
Proof. by move=> e; have := C48_sqrt_values m n s a b; cbv zeta; rewrite e => -[_ -> _ _]; split=> [[->]|->]. Qed.

Theorem C48_sqrt_equal_sizes n s (a b : R) X : let shape := [:: n, n & s] in
  let v := fun i => Num.sqrt `|grid_sum a b shape i| in
  sqrt_tensor shape a b = Ok X -> nshape X = shape /\
  forall i, inb shape i -> get X i = v i / Num.sqrt (sum_idx shape (fun l => v l ^+ 2)).
Proof.
move=> shape v e; have := C48_sqrt_values n n s a b; cbv zeta; rewrite e => -[_ -> H _]; split=> //.
case=> [|j [|i k]] //=; first by rewrite andbF.
move=> /and3P[hj hi hk]; rewrite H /= ?hi ?hj //.
by rewrite /v /shape /grid_sum /= !big_cons /= addrCA.
Qed.

(* power_decay_tensor always raises NameError *)
Theorem C48_power_decay shape (p : R) seed : power_decay_tensor shape p seed = Err NameError.
Proof. by []. Qed.
End Gen.

(* A request for a 2 x 3 tensor with the default a = -0.2, b = 2 yields a 3 x 2 tensor *)
Theorem C48_sqrt_swapped (R : rcfType) : exists2 X : nd R, sqrt_tensor [:: 2; 3]%N (- (1 / 5%:R)) 2%:R = Ok X & nshape X = [:: 3; 2]%N.
Proof.
have := C48_sqrt_values 2 3 [::] (- (1 / 5%:R)) (2%:R : R); cbv zeta; case: sqrt_tensor => [X|e].
  by case=> _ s _ _; exists X.
case=> _ [_ /(_ [:: 1; 2]%N isT)]; rewrite /grid_sum /= !big_cons big_nil /grid_point /= addr0.
rewrite (_ : 2%:R - 1 = 1 :> R); last by rewrite -[2%:R]/(1 + 1) addrK.
rewrite (_ : 3%:R - 1 = 2%:R :> R); last by rewrite (natrD _ 2 1) addrK.
rewrite !divff ?pnatr_eq0 ?oner_eq0 // !mulr1 addrC subrK => /eqP.
by rewrite -natrD pnatr_eq0.
Qed.

Section Projector.
Variable R : rcfType.
Notation arr := (nd R).
Variable pinv : arr -> res arr.
Hypothesis pinvP : pinv_contract pinv.

Lemma projE X Y m n k : is_mat X m n -> is_mat Y m k -> or_linalg (projector pinv X (Some Y)) (fun P =>
  is_mat P m m /\ exists2 G, penrose ((amat Y m k)^T *m amat X m n) G & amat P m m = amat X m n *m G *m (amat Y m k)^T).
Proof.
move=> mX mY; rewrite /projector /=.
have mT : is_mat (tr Y) k m by case: mY => wY sY; split; [exact: nwf_tab|exact: nshape_tr sY].
have eT : amat (tr Y) k m = (amat Y m k)^T by case: mY => _ s; exact: amat_tr.
have [YX -> [mYX /amat_mul gYX]] := matmulE mT mX; rewrite /=.
have := pinvP mYX; case: (pinv YX) => [G|e] //= -[mG pG].
have [XG -> [mXG /amat_mul gXG]] := matmulE mX mG; rewrite /=.
have [P -> [mP /amat_mul gP]] := matmulE mXG mT; rewrite /=; split=> //.
by exists (amat G n k); [rewrite -eT -gYX|rewrite gP gXG eT].
Qed.

(* projector(X, Y) is idempotent; its columns lie in the span of the columns of X, its rows in
   the span of the columns of Y; for all real X (m x n) and Y (m x k) *)
Theorem C49_idempotent X Y m n k : is_mat X m n -> is_mat Y m k -> or_linalg (projector pinv X (Some Y)) (fun P =>
  [/\ is_mat P m m, amat P m m *m amat P m m = amat P m m, exists M, amat P m m = amat X m n *m M &
      exists M, amat P m m = M *m (amat Y m k)^T]).
Proof.
move=> mX mY; have := projE mX mY; case: projector => //= P [mP [G [_ p2 _ _] e]]; split=> //.
- by rewrite e -!mulmxA; congr (_ *m _); rewrite -[in RHS]p2 !mulmxA.
- by exists (G *m (amat Y m k)^T); rewrite mulmxA.
- by exists (amat X m n *m G).
Qed.

Lemma fix_iff m n k (X : 'M[R]_(m, n)) (Y : 'M[R]_(m, k)) G : penrose (Y^T *m X) G ->
  (X *m G *m Y^T *m X = X <-> \rank (Y^T *m X) = \rank X) /\
  (Y^T *m (X *m G *m Y^T) = Y^T <-> \rank (Y^T *m X) = \rank Y).
Proof.
case=> p1 p2 _ _; split; split.
- move=> e; apply/eqP; rewrite eqn_leq mxrankM_maxr /=.
  by rewrite -{1}e -mulmxA mxrankM_maxr.
- move=> /row_range[N e]; transitivity (N *m (Y^T *m X *m G *m (Y^T *m X))); last by rewrite p1 -e.
  by rewrite !mulmxA -[N *m Y^T *m X]mulmxA -e.
- move=> e; apply/eqP; rewrite eqn_leq -[\rank Y]mxrank_tr mxrankM_maxl /=.
  by rewrite -{1}e -mulmxA mulmxA mxrankM_maxl.
- rewrite -[\rank Y]mxrank_tr => /col_range[M e].
  by rewrite !mulmxA {2}e mulmxA p1 -e.
Qed.

(* It fixes X exactly when rank(Y^T X) = rank X, and Y^T exactly when rank(Y^T X) = rank Y *)
Theorem C49_fixes X Y m n k : is_mat X m n -> is_mat Y m k -> or_linalg (projector pinv X (Some Y)) (fun P =>
  (amat P m m *m amat X m n = amat X m n <-> \rank ((amat Y m k)^T *m amat X m n) = \rank (amat X m n)) /\
  ((amat Y m k)^T *m amat P m m = (amat Y m k)^T <-> \rank ((amat Y m k)^T *m amat X m n) = \rank (amat Y m k))).
Proof.
move=> mX mY; have := projE mX mY; case: projector => //= P [mP [G pG e]].
by rewrite e; exact: fix_iff.
Qed.

(* ... in particular when Y^T X is invertible *)
Theorem C49_invertible X Y m n : is_mat X m n -> is_mat Y m n -> (amat Y m n)^T *m amat X m n \in unitmx ->
  or_linalg (projector pinv X (Some Y)) (fun P =>
   amat P m m *m amat X m n = amat X m n /\ (amat Y m n)^T *m amat P m m = (amat Y m n)^T).
Proof.
move=> mX mY u; have := C49_fixes mX mY; case: projector => //= P [h1 h2].
have r : \rank ((amat Y m n)^T *m amat X m n) = n by apply: mxrank_unit.
split; [apply/h1|apply/h2]; rewrite r; apply/eqP; rewrite eqn_leq rank_leq_col andbT -{1}r.
- exact: mxrankM_maxr.
- by rewrite -[\rank (amat Y m n)]mxrank_tr mxrankM_maxl.
Qed.

Lemma gram_rank m n (X : 'M[R]_(m, n)) : \rank (X^T *m X) = \rank X.
Proof.
apply/eqP; rewrite eqn_leq mxrankM_maxr /=.
have [D e] : exists D, X = D *m (X^T *m X) by apply/submxP; have := normal_sub X 1%:M; rewrite mul1mx.
by rewrite {1}e mxrankM_maxr.
Qed.

(* projector(X) is the orthogonal projector on the span of the columns of X *)
Theorem C49_orthogonal X m n : is_mat X m n -> or_linalg (projector pinv X None) (fun P =>
  [/\ is_mat P m m, (amat P m m)^T = amat P m m, amat P m m *m amat P m m = amat P m m,
      amat P m m *m amat X m n = amat X m n & exists M, amat P m m = amat X m n *m M]).
Proof.
move=> mX; rewrite -[projector _ _ _]/(projector pinv X (Some X)).
have := C49_idempotent mX mX; have := C49_fixes mX mX; have := projE mX mX; case: projector => //= P.
move=> [mP [G [p1 p2 p3 p4] e]] [[_ /(_ (gram_rank _)) h1] _] [_ h2 h3 _]; split=> //.
set A := amat X m n in p1 p2 p3 p4 e h1 *.
have /trmx_inj eG : G^T^T = G^T^T by [].
(* P X = X and P = X G X^T: P^T P = P^T, so P^T is symmetric *)
have q : (amat P m m)^T *m A = A.
  have [_ [_ h]] := fix_iff (And4 p1 p2 p3 p4).
  have := h (gram_rank A); rewrite -e => /(congr1 trmx).
  by rewrite trmx_mul trmxK.
have : (amat P m m)^T *m amat P m m = amat P m m by rewrite {2}e !mulmxA q -e.
by move=> <-; rewrite trmx_mul trmxK.
Qed.

(* operands with different numbers of rows are rejected *)
Theorem C49_mismatch X Y m m' n k : is_mat X m n -> is_mat Y m' k -> m != m' ->
  projector pinv X (Some Y) = Err ValueError.
Proof.
case=> wX sX [wY sY] hm; rewrite /projector; cbn [odflt oapp]; rewrite /matmul (nshape_tr sY) sX.
by rewrite eq_sym (negPf hm).
Qed.
End Projector.

Section Unique.
Variable R : rcfType.
Notation arr := (nd R).

Lemma penrose_uniq m n (A : 'M[R]_(m, n)) G H : penrose A G -> penrose A H -> G = H.
Proof.
case=> g1 g2 g3 g4 [h1 h2 h3 h4].
have e1 : A *m G = A *m H.
  have -> : A *m G = (A *m H) *m (A *m G) by rewrite mulmxA h1.
  by rewrite -{1}h3 -{1}g3 -trmx_mul mulmxA g1 h3.
have e2 : G *m A = H *m A.
  have -> : G *m A = (G *m A) *m (H *m A) by rewrite mulmxA -2!mulmxA [A *m (H *m A)]mulmxA h1.
  by rewrite -{1}h4 -{1}g4 -trmx_mul -mulmxA [A *m (G *m A)]mulmxA g1 h4.
by rewrite -g2 -mulmxA e1 mulmxA e2 h2.
Qed.

(* The result does not depend on which Moore-Penrose routine is used *)
Theorem C49_unique (pinv pinv' : arr -> res arr) X Y m n k P P' : pinv_contract pinv -> pinv_contract pinv' ->
  is_mat X m n -> is_mat Y m k -> projector pinv X (Some Y) = Ok P -> projector pinv' X (Some Y) = Ok P' -> P = P'.
Proof.
move=> c c' mX mY e e'; have := projE c mX mY; have := projE c' mX mY; rewrite e e' /=.
move=> [m' [G' p' E']] [mP [G p E]]; apply: (amat_inj mP m').
by rewrite E E' (penrose_uniq p p').
Qed.

(* ---- such a routine exists ---- *)
Definition inv13 m n (A : 'M[R]_(m, n)) : 'M[R]_(n, m) := lsq A 1%:M.
Lemma inv13P m n (A : 'M[R]_(m, n)) : A *m inv13 A *m A = A /\ (A *m inv13 A)^T = A *m inv13 A.
Proof.
set G := inv13 A; have e : A^T *m (A *m G) = A^T.
  by have := lsqP A 1%:M; rewrite mulmxBr mulmx1 => /eqP; rewrite subr_eq0 => /eqP.
have e2 : (A *m G)^T *m (A *m G) = (A *m G)^T by rewrite {1}trmx_mul -mulmxA e -trmx_mul.
have sy : (A *m G)^T = A *m G by have := congr1 trmx e2; rewrite trmx_mul trmxK e2.
by split=> //; have := congr1 trmx e; rewrite trmx_mul trmxK sy.
Qed.
Definition pinvm m n (A : 'M[R]_(m, n)) : 'M[R]_(n, m) := (inv13 A^T)^T *m A *m inv13 A.
Lemma pinvmP m n (A : 'M[R]_(m, n)) : penrose A (pinvm A).
Proof.
have [a1 a2] := inv13P A; have [] := inv13P A^T; rewrite /pinvm; move: (inv13 A) a1 a2 (inv13 A^T) => G a1 a2 H' b1 b2.
have h1 : A *m H'^T *m A = A by have := congr1 trmx b1; rewrite !trmx_mul !trmxK mulmxA.
have h2 : (H'^T *m A)^T = H'^T *m A by rewrite trmx_mul trmxK -b2 trmx_mul trmxK.
set K := H'^T *m A *m G; have e1 : A *m K = A *m G by rewrite /K !mulmxA h1.
have e2 : K *m A = H'^T *m A by rewrite /K -!mulmxA [A *m (_ *m A)]mulmxA a1.
split; [by rewrite e1| |by rewrite e1|by rewrite e2].
rewrite e2 /K !mulmxA; congr (_ *m _); rewrite -!mulmxA; congr (_ *m _); by rewrite mulmxA h1.
Qed.
Definition pinv0 (A : arr) : res arr :=
  if nshape A is [:: m; n] then Ok (nd_of (pinvm (amat A m n))) else Err LinAlgError.
Lemma pinv0P : pinv_contract pinv0.
Proof.
move=> A m n [wA sA]; rewrite /pinv0 sA /=; split; first exact: nd_of_mat.
by rewrite amat_nd_of; exact: pinvmP.
Qed.

(* The hypotheses are met: X = (1,0)^T, Y = (1,1)^T, whose projector is the oblique [[1,1],[0,0]] *)
Example ex_oblique : let X := nd_of (\matrix_(i < 2, j < 1) (i == 0)%:R : 'M[R]_(2, 1)) in
  let Y := nd_of (\matrix_(i < 2, j < 1) 1 : 'M[R]_(2, 1)) in
  exists2 P, projector pinv0 X (Some Y) = Ok P & [/\ get P [:: 0; 1]%N = 1, amat P 2 2 *m amat P 2 2 = amat P 2 2 & amat P 2 2 *m amat X 2 1 = amat X 2 1].
Proof.
move=> X Y; have mX : is_mat X 2 1 := nd_of_mat _; have mY : is_mat Y 2 1 := nd_of_mat _.
have tot : exists P, projector pinv0 X (Some Y) = Ok P.
  move: X Y mX mY => X Y mX mY.
  have mT : is_mat (tr Y) 1 2 by case: mY => wY sY; split; [exact: nwf_tab|exact: nshape_tr sY].
  rewrite /projector; cbn [odflt oapp]; have [YX -> [mYX _]] := matmulE mT mX.
  rewrite [bind (Ok _) _]/=; have -> : pinv0 YX = Ok (nd_of (pinvm (amat YX 1 1))) by rewrite /pinv0; case: (mYX) => _ ->.
  rewrite [bind (Ok _) _]/=.
  have [XG -> [mXG _]] := matmulE mX (nd_of_mat (pinvm (amat YX 1 1))).
  by rewrite [bind (Ok _) _]/=; have [P -> _] := matmulE mXG mT; exists P.
have [P e] := tot; exists P => //.
have u : (amat Y 2 1)^T *m amat X 2 1 = 1%:M.
  rewrite !amat_nd_of; apply/matrixP => i j; rewrite !ord1 !mxE big_ord_recl big_ord1 !mxE /=.
  by rewrite mulr1 mulr0 addr0.
have := C49_invertible pinv0P mX mY; rewrite u unitmx1 e => /(_ isT)[h1 h2].
have := C49_idempotent pinv0P mX mY; rewrite e => -[mP h3 [M h4] _]; split=> //.
have g0 : (amat Y 2 1)^T *m amat X 2 1 *m M = (amat Y 2 1)^T by rewrite -mulmxA -h4.
move: g0; rewrite u mul1mx => eM; move: h4; rewrite eM => h4.
rewrite (amat_get P (m := 2) (n := 2) (isT : (0 < 2)%N) (isT : (1 < 2)%N)) h4 !amat_nd_of !mxE big_ord1 !mxE /=.
by rewrite mulr1.
Qed.
End Unique.

(* hypotheses of the C48 theorems: a 2 x 3 request succeeds (C48_sqrt_swapped); an all-zero grid fails *)
Example ex_zero_grid (R : rcfType) : sqrt_tensor [:: 2; 2]%N (0 : R) 0 = Err NonFinite.
Proof.
have := C48_sqrt_values 2 2 [::] (0 : R) 0; rewrite sqrtE //.
set N2 := sum_idx _ _; have -> : N2 = 0.
  rewrite /N2 /= !big_nat_recl ?big_geq //= /grid_sum /= !big_cons !big_nil /grid_point /=.
  by rewrite !subr0 !mul0r !addr0 normr0 !addr0.
by rewrite eqxx.
Qed.
Print Assumptions C48_hilbert.
Print Assumptions C48_sqrt_values.
Print Assumptions C48_sqrt_values1.
Print Assumptions C48_sqrt_no_modes.
Print Assumptions C48_sqrt_shape_iff.
Print Assumptions C48_sqrt_equal_sizes.
Print Assumptions C48_power_decay.
Print Assumptions C48_sqrt_swapped.
Print Assumptions C49_idempotent.
Print Assumptions C49_fixes.
Print Assumptions C49_invertible.
Print Assumptions C49_orthogonal.
Print Assumptions C49_mismatch.
Print Assumptions C49_unique.
