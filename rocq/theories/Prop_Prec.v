(* Property C42: TTPrecond (tt_gmres.py:137-168).  [mode_mul M m x] (GmresSpec.v) is the tensor x
   with the matrix M applied to its mode number m; [upd i m l] is the multi-index i with its
   m-th entry replaced by l. *)
From Coq Require Import String Ascii NArith.
From mathcomp Require Import all_ssreflect all_algebra.
From mathcomp Require Import zify.
From Verif Require Import Py Nd Utils Tensor TensorNum Sketch Mpo Gmres Spec LinSpec RecSpec SkSpec MpoSpec GmresSpec.
From Verif Require Import NdThy Ein MatThy TensorThy TensorThy2 ChainThy SweepThy RoundThy SkThy1 SkThy2 PrecThy.
Set Implicit Arguments. Unset Strict Implicit. Unset Printing Implicit Defensive.
Import GRing.Theory Num.Theory.
Local Open Scope ring_scope.

Section Prec.
Variable R : rcfType.
Notation arr := (nd R).

Lemma nth_upd i m l : (m < size i)%N -> nth 0%N (upd i m l) m = l.
Proof. by move=> h; rewrite /upd nth_cat size_takel ?(ltnW h) // ltnn subnn. Qed.
Lemma upd_upd i m l l' : (m < size i)%N -> upd (upd i m l) m l' = upd i m l'.
Proof.
move=> h; rewrite /upd take_size_cat ?size_takel ?(ltnW h) //; congr (_ ++ _ :: _).
rewrite -[in LHS]cat1s catA drop_size_cat // size_cat /= size_takel ?(ltnW h) //; lia.
Qed.
Lemma upd_nth i m : (m < size i)%N -> upd i m (nth 0%N i m) = i.
Proof. by move=> h; rewrite /upd -drop_nth // cat_take_drop. Qed.
Lemma inb_upd s i m l : inb s i -> (l < nth 0%N s m)%N -> inb s (upd i m l).
Proof.
elim: s i m => [|n s IH] [|k i] [|m] //=; rewrite /upd /= ?drop0.
  by move=> /andP[_ h] hl; rewrite hl.
by move=> /andP[hk h] hl; rewrite hk; apply: IH.
Qed.
Lemma size_inb s i : inb s i -> size i = size s.
Proof. by elim: s i => [|n s IH] [|k i] //= /andP[_ /IH ->]. Qed.
Lemma nth_inb s i m : inb s i -> (m < size s)%N -> (nth 0 i m < nth 0 s m)%N.
Proof. by elim: s i m => [|n s IH] [|k i] [|m] //= /andP[hk h] // hm; apply: IH. Qed.

Lemma mode_mul_ext n (M : 'M[R]_n) m x y s i : inb s i -> (m < size s)%N -> n = nth 0%N s m ->
  (forall i, inb s i -> x i = y i) -> mode_mul M m x i = mode_mul M m y i.
Proof.
move=> hi hm en h; apply: eq_bigr => l _; congr (_ * _); apply: h; apply: inb_upd => //; by rewrite -en.
Qed.

Lemma mode_mul_comp n (M N : 'M[R]_n) m x s i : inb s i -> (m < size s)%N -> n = nth 0%N s m ->
  mode_mul M m (mode_mul N m x) i = mode_mul (M *m N) m x i.
Proof.
move=> hi hm en; have si := size_inb hi; have hk : (nth 0 i m < n)%N by rewrite en (nth_inb hi).
rewrite -si in hm; rewrite /mode_mul; case: insubP => [k _ ek|]; last by rewrite hk.
under eq_bigr => l _ do rewrite nth_upd // valK big_distrr /=.
rewrite exchange_big /=; apply: eq_bigr => l _; rewrite mxE big_distrl /=.
by apply: eq_bigr => t _; rewrite upd_upd // mulrA.
Qed.
Lemma mode_mul1 n m (x : seq nat -> R) s i : inb s i -> (m < size s)%N -> n = nth 0%N s m ->
  mode_mul (1%:M : 'M_n) m x i = x i.
Proof.
move=> hi hm en; have si := size_inb hi; have hk : (nth 0 i m < n)%N by rewrite en (nth_inb hi).
rewrite -si in hm; rewrite /mode_mul; case: insubP => [k _ ek|]; last by rewrite hk.
rewrite (bigD1 k) //= big1 ?addr0; first by rewrite mxE eqxx mul1r /= ek upd_nth.
by move=> l hl; rewrite mxE eq_sym (negbTE hl) mul0r.
Qed.

Variables (qr : arr -> res (arr * arr)) (solve_tri : arr -> arr -> res arr).
Hypotheses (qrP : qr_tri_contract qr) (solP : solve_tri_contract solve_tri).

(* The hypotheses on a call: x is a train, P = TTPrecond(A, shape, mode) was constructed from a
   square matrix of the size of the mode. *)
Definition prec_args (p : precond R) (A : arr) (cs : seq arr) (s : seq nat) (mode n : nat) : Prop :=
  [/\ wf_tt cs, (mode < size cs)%N, n = nth 0%N (tshape (TT cs)) mode, is_mat A n n &
      precond_new qr A s mode = Ok p].

(* forward_call multiplies by A on its mode: y[i] = sum_l A[i_mode, l] x[i with i_mode := l] *)
Theorem C42_forward p A cs s mode n : prec_args p A cs s mode n ->
  exists ys x y, [/\ precond_forward p cs = Ok ys, wf_tt ys /\ tt_rank ys = tt_rank cs,
    to_numpy (TT cs) = Ok x, to_numpy (TT ys) = Ok y & nshape y = nshape x /\
    forall i, inb (nshape x) i -> get y i = \sum_(0 <= l < n) get A [:: nth 0%N i mode; l] * get x (upd i mode l)].
Proof.
move=> [w hm en hA enew]; have [_ _ _ _ [eA em _]] := precond_fac qrP hA enew.
rewrite -em in hm en; rewrite -eA in hA.
have [ys ey [wy sy ry gy]] := forwardE w hm en hA erefl.
have [x ex [wx sx gx]] := to_numpyE (w : wf (TT cs)); have [y e [wy' sy' gy']] := to_numpyE (wy : wf (TT ys)).
exists ys, x, y; split=> //; split; first by rewrite sy' sx.
rewrite sx => i hi; rewrite gy' ?sy // gy // /mode_mul big_mkord.
apply: eq_bigr => l _; have hk : (nth 0 i (p_mode p) < n)%N by rewrite en (nth_inb hi) // size_map.
rewrite -?em; case: insubP => [k _ ek|]; last by rewrite hk.
by rewrite mxE ek eA gx //; apply: inb_upd => //; rewrite -en.
Qed.

(* P(x) for an invertible A: the solution y of the linear system "A applied to the mode of y is x" *)
Theorem C42_backward p A cs s mode n : prec_args p A cs s mode n -> amat A n n \in unitmx ->
  exists ys x y, [/\ precond_backward solve_tri p cs = Ok ys, wf_tt ys /\ tt_rank ys = tt_rank cs,
    to_numpy (TT cs) = Ok x, to_numpy (TT ys) = Ok y & nshape y = nshape x /\
    forall i, inb (nshape x) i -> \sum_(0 <= l < n) get A [:: nth 0%N i mode; l] * get y (upd i mode l) = get x i].
Proof.
move=> [w hm en hA enew] uA; have [_ _ _ _ [eA em _]] := precond_fac qrP hA enew.
rewrite -em in hm en; rewrite -eA in hA; rewrite -eA -em in enew.
have := backwardE qrP solP w hm en hA enew; rewrite eA uA => -[ys ey [wy sy ry gy]].
have [x ex [wx sx gx]] := to_numpyE (w : wf (TT cs)); have [y e [wy' sy' gy']] := to_numpyE (wy : wf (TT ys)).
exists ys, x, y; split=> //; split; first by rewrite sy' sx.
have hm' : (p_mode p < size (tshape (TT cs)))%N by rewrite size_map.
rewrite sx => i hi; rewrite gx // -(mode_mul1 (den (TT cs)) hi hm' en) -(mulmxV uA) -(mode_mul_comp _ _ _ hi hm' en).
rewrite -em /mode_mul big_mkord; apply: eq_bigr => l _; have hk : (nth 0 i (p_mode p) < n)%N by rewrite en (nth_inb hi) // size_map.
case: insubP => [k _ ek|]; last by rewrite hk.
rewrite [in RHS]mxE ek; congr (_ * _); have hi' : inb (tshape (TT cs)) (upd i (p_mode p) l) by apply: inb_upd => //; rewrite -en.
by rewrite gy' ?sy // gy.
Qed.

(* ... and for a singular A every call raises LinAlgError *)
Theorem C42_singular p A cs s mode n : prec_args p A cs s mode n -> amat A n n \notin unitmx ->
  precond_backward solve_tri p cs = Err LinAlgError.
Proof.
move=> [w hm en hA enew] uA; have [_ _ _ _ [eA em _]] := precond_fac qrP hA enew.
rewrite -em in hm en; rewrite -eA in hA; rewrite -eA -em in enew.
by have := backwardE qrP solP w hm en hA enew; rewrite eA (negbTE uA).
Qed.

(* P and P.forward_call are inverse to each other *)
Theorem C42_inverse p A cs s mode n : prec_args p A cs s mode n -> amat A n n \in unitmx ->
  exists ys zs ys' zs',
  [/\ precond_forward p cs = Ok ys, precond_backward solve_tri p ys = Ok zs & to_numpy (TT zs) = to_numpy (TT cs)] /\
  [/\ precond_backward solve_tri p cs = Ok ys', precond_forward p ys' = Ok zs' & to_numpy (TT zs') = to_numpy (TT cs)].
Proof.
move=> [w hm en hA enew] uA; have [_ _ _ _ [eA em _]] := precond_fac qrP hA enew.
rewrite -em in hm en; rewrite -eA in hA; rewrite -eA -em in enew.
have hm' : (p_mode p < size (tshape (TT cs)))%N by rewrite size_map.
have sz (ys : seq arr) : tshape (TT ys) = tshape (TT cs) -> size ys = size cs.
  by move=> e; have := congr1 size e; rewrite !size_map.
have fin (zs : seq arr) : wf_tt zs -> tshape (TT zs) = tshape (TT cs) ->
    (forall i, inb (tshape (TT cs)) i -> den (TT zs) i = den (TT cs) i) -> to_numpy (TT zs) = to_numpy (TT cs).
  move=> wz sz' gz; have [x -> [wx sx gx]] := to_numpyE (w : wf (TT cs)).
  have [y -> [wy sy gy]] := to_numpyE (wz : wf (TT zs)); congr Ok; apply: nd_ext => //; first by rewrite sx sy.
  by rewrite sy => i hi; rewrite gy // gz -?sz' // gx // -sz'.
have [ys ey [wy sy ry gy]] := forwardE w hm en hA erefl.
have := backwardE qrP solP w hm en hA enew; rewrite eA uA => -[ys' ey' [wy' sy' ry' gy']].
have hmy : (p_mode p < size ys)%N by rewrite (sz _ sy).
have hmy' : (p_mode p < size ys')%N by rewrite (sz _ sy').
have eny : n = nth 0%N (tshape (TT ys)) (p_mode p) by rewrite sy.
have eny' : n = nth 0%N (tshape (TT ys')) (p_mode p) by rewrite sy'.
have := backwardE qrP solP wy hmy eny hA enew; rewrite eA uA => -[zs ez [wz sz1 rz gz]].
have [zs' ez' [wz' sz2 rz' gz']] := forwardE wy' hmy' eny' hA erefl.
exists ys, zs, ys', zs'; split; split=> //; apply: fin => //; rewrite ?sz1 ?sz2 // => i hi.
  rewrite gz ?sy // (mode_mul_ext _ hi hm' en gy) (mode_mul_comp _ _ _ hi hm' en) eA mulVmx //.
  exact: mode_mul1 hi hm' en.
rewrite gz' ?sy' // (mode_mul_ext _ hi hm' en gy') (mode_mul_comp _ _ _ hi hm' en) eA mulmxV //.
exact: mode_mul1 hi hm' en.
Qed.

(* Errors: a mode number beyond the number of modes *)
Theorem C42_bad_mode p (cs : seq arr) : (size cs <= p_mode p)%N ->
  precond_forward p cs = Err IndexError /\ precond_backward solve_tri p cs = Err IndexError.
Proof.
by move=> h; rewrite /precond_forward /precond_backward /pyget drop_oversize.
Qed.
End Prec.
Print Assumptions C42_forward.
Print Assumptions C42_backward.
Print Assumptions C42_singular.
Print Assumptions C42_inverse.
Print Assumptions C42_bad_mode.
