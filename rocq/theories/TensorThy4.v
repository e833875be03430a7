(* Observable forms of the tensor-algebra results: statements about to_numpy(). *)
From Coq Require Import String Ascii.
From mathcomp Require Import all_ssreflect all_algebra.
From mathcomp Require Import zify.
From Verif Require Import Py Nd NdThy Ein Utils Tensor Spec ChainThy TensorThy TensorThy2 TensorThy3.
Set Implicit Arguments. Unset Strict Implicit. Unset Printing Implicit Defensive.
Import GRing.Theory.
Local Open Scope ring_scope.

Section Obs.
Variable R : comRingType.
Notation arr := (nd R).
Notation tensor := (tensor R).
Implicit Types (X Y : tensor).

Lemma represents_inj (a b : arr) X : represents a X -> represents b X -> a = b.
Proof.
move=> [H1 H2 H3] [H4 H5 H6]; apply: nd_ext; rewrite ?H2 ?H5 // => i Hi.
by rewrite H3 // H6.
Qed.

Lemma to_numpy_rep X a : wf X -> to_numpy X = Ok a -> represents a X.
Proof. by case/to_numpyE=> b -> Hb [<-]. Qed.

Lemma to_numpy_same X Y : wf X -> wf Y -> same_tensor X Y -> to_numpy X = to_numpy Y.
Proof.
move=> /to_numpyE[a -> [H1 H2 H3]] /to_numpyE[b -> [H4 H5 H6]] [S D]; congr Ok.
by apply: nd_ext; rewrite ?H2 ?H5 ?S // => i Hi; rewrite H3 ?H6 ?S ?D ?S.
Qed.

Lemma obs_T X : wf X -> exists Y a b,
  [/\ tT X = Ok Y, wf Y, to_numpy X = Ok a & to_numpy Y = Ok b] /\
  [/\ tshape Y = rev (tshape X), nshape a = tshape X, nshape b = rev (nshape a) &
      forall i, inb (nshape a) i -> get b (rev i) = get a i].
Proof.
move=> HX; have [Y EY [WY SY DY]] := tTE HX.
have [a Ea [H1 H2 H3]] := to_numpyE HX; have [b Eb [H4 H5 H6]] := to_numpyE WY.
exists Y, a, b; split=> //; split; rewrite ?H5 ?SY ?H2 // => i Hi.
by rewrite H6 ?SY ?inb_rev // DY // H3.
Qed.

Lemma obs_TT X : wf X -> exists Y Z, [/\ tT X = Ok Y, tT Y = Ok Z & to_numpy Z = to_numpy X].
Proof.
move=> HX; have [Y EY [WY SY DY]] := tTE HX; have [Z EZ [WZ SZ DZ]] := tTE WY.
exists Y, Z; split=> //; apply: to_numpy_same => //; split; first by rewrite SZ SY revK.
move=> i; rewrite SZ SY revK => Hi.
by rewrite -{1}(revK i) DZ ?SY ?inb_rev // DY.
Qed.

Lemma obs_mul X c : wf X -> exists Y a b,
  [/\ tmul X c = Ok Y, wf Y, to_numpy X = Ok a & to_numpy Y = Ok b] /\
  [/\ tshape Y = tshape X, nshape b = nshape a &
      forall i, inb (nshape a) i -> get b i = c * get a i].
Proof.
move=> HX; have [Y EY [WY SY DY]] := tmulE c HX.
have [a Ea [H1 H2 H3]] := to_numpyE HX; have [b Eb [H4 H5 H6]] := to_numpyE WY.
exists Y, a, b; split=> //; split; rewrite ?H5 ?SY ?H2 // => i Hi.
by rewrite H6 ?SY // DY // H3.
Qed.

Lemma obs_mul_list s (Xs : seq tensor) (cs : seq R) : wf (TSum s Xs) ->
  if size Xs == size cs then exists Z c arrs,
    [/\ sum_mul_list Xs cs = Ok Z, wf Z, tshape Z = s, to_numpy Z = Ok c & mapM (@to_numpy R) Xs = Ok arrs] /\
    forall i, inb s i -> get c i = \sum_(p <- zip cs arrs) p.1 * get p.2 i
  else sum_mul_list Xs cs = Err ValueError.
Proof.
rewrite /sum_mul_list; case: eqP => // sz; rewrite /wf wf_sumE => /andP[n h].
have [Ys [arrs [E Ea szY hY g]]] : exists Ys arrs, [/\ mapM (fun p : tensor * R => tmul p.1 p.2) (zip Xs cs) = Ok Ys,
    mapM (@to_numpy R) Xs = Ok arrs, size Ys = size Xs, all (fun y => wf y && (tshape y == s)) Ys &
    forall i, inb s i -> \sum_(Y <- Ys) den Y i = \sum_(p <- zip cs arrs) p.1 * get p.2 i].
  elim: Xs cs sz h {n} => [|X Xs IH] [|c cs] //=.
    by move=> _ _; exists [::], [::]; split=> // i _; rewrite !big_nil.
  case=> sz /andP[/andP[w /eqP eX] h]; have [Y -> [wY sY gY]] := tmulE c w.
  have [a -> [_ sa ga]] := to_numpyE w.
  have [Ys [arrs [E Ea szY hY g]]] := IH _ sz h.
  cbn [bind]; rewrite E Ea; exists (Y :: Ys), (a :: arrs); split=> //=; first by rewrite szY.
    by rewrite hY /wf wY sY eX eqxx.
  by move=> i hi; rewrite !big_cons g // gY ?ga ?eX.
rewrite E Ea [bind _ _]/=; case: Ys E szY hY g => [|Y Ys] E szY hY g.
  by case: Xs n szY {sz h E Ea}.
have sY : tshape Y = s by case/andP: hY => /andP[_ /eqP].
have wZ : wf (TSum s (Y :: Ys)) by rewrite /wf wf_sumE.
have [c Ec [_ sc gc]] := to_numpyE wZ.
exists (TSum s (Y :: Ys)), c, arrs; rewrite /mk_sum sY; split; first by split.
by move=> i hi; rewrite gc // den_sum g.
Qed.

Lemma obs_neg X : wf X -> exists Y a b,
  [/\ tneg X = Ok Y, wf Y, to_numpy X = Ok a & to_numpy Y = Ok b] /\
  [/\ tshape Y = tshape X, nshape b = nshape a &
      forall i, inb (nshape a) i -> get b i = - get a i].
Proof.
case/(obs_mul (-1)) => Y [a [b [H1 [H2 H3 H4]]]]; exists Y, a, b; split=> //; split=> // i Hi.
by rewrite H4 // mulN1r.
Qed.

Lemma obs_add X Y : wf X -> wf Y -> tshape X = tshape Y -> exists Z a b c,
  [/\ tadd X Y = Ok Z, wf Z, to_numpy X = Ok a, to_numpy Y = Ok b & to_numpy Z = Ok c] /\
  [/\ tshape Z = tshape X, nshape a = tshape X, nshape c = tshape X &
      forall i, inb (tshape X) i -> get c i = get a i + get b i].
Proof.
move=> HX HY ES; have [Z EZ [WZ SZ _ DZ]] := taddE HX HY ES.
have [a Ea [H1 H2 H3]] := to_numpyE HX; have [b Eb [H4 H5 H6]] := to_numpyE HY.
have [c Ec [H7 H8 H9]] := to_numpyE WZ.
exists Z, a, b, c; split=> //; split; rewrite ?H8 // => i Hi.
by rewrite H9 ?SZ // DZ H3 // H6 -?ES.
Qed.

Lemma obs_sub X Y : wf X -> wf Y -> tshape X = tshape Y -> exists Z a b c,
  [/\ tsub X Y = Ok Z, wf Z, to_numpy X = Ok a, to_numpy Y = Ok b & to_numpy Z = Ok c] /\
  [/\ tshape Z = tshape X, nshape a = tshape X, nshape c = tshape X &
      forall i, inb (tshape X) i -> get c i = get a i - get b i].
Proof.
move=> HX HY ES; have [Z EZ [WZ SZ DZ]] := tsubE HX HY ES.
have [a Ea [H1 H2 H3]] := to_numpyE HX; have [b Eb [H4 H5 H6]] := to_numpyE HY.
have [c Ec [H7 H8 H9]] := to_numpyE WZ.
exists Z, a, b, c; split=> //; split; rewrite ?H8 // => i Hi.
by rewrite H9 ?SZ // DZ // H3 // H6 -?ES.
Qed.

Lemma flat_add X Y : wf X -> wf Y -> tshape X = tshape Y ->
  tadd X Y = Ok (TSum (tshape X) ((if X is TSum _ l then l else [:: X]) ++
                                  (if Y is TSum _ l then l else [:: Y]))).
Proof. by move=> HX HY ES; have [Z -> [_ _ -> _]] := taddE HX HY ES. Qed.

(* C04 *)
Lemma obs_sparse s inds (vals : seq R) : wf (Sparse s inds vals) ->
  exists2 a, to_numpy (Sparse s inds vals) = Ok a &
  [/\ nshape a = s,
      forall k, (k < size vals)%N -> get a (column inds k) = nth 0 vals k &
      forall i, inb s i -> (forall k, (k < size vals)%N -> column inds k != i) -> get a i = 0].
Proof.
move=> H; have [a -> [H1 H2 H3]] := to_numpyE H; exists a => //; split=> //.
- move: H => /= /andP[/and3P[_ _ Hin] Hu] k Hk.
  rewrite H3 /=; last by apply: (allP Hin); rewrite mem_iota.
  rewrite -(sum_nat_delta (fun x => nth 0 vals x) Hk); apply: eq_big_nat => l /= Hl.
  congr (_ * _); congr ((nat_of_bool _)%:R).
  have Hu' := Hu : uniq [seq column inds k | k <- iota 0 (size vals)].
  have G m : (m < size vals)%N -> column inds m = nth [::] [seq column inds k | k <- iota 0 (size vals)] m.
    by move=> Hm; rewrite (nth_map 0%N) ?size_iota // nth_iota.
  by rewrite G // (G k) // nth_uniq // ?size_map ?size_iota.
move=> i Hi Hk; rewrite H3 //= big1_seq // => k /=; rewrite mem_index_iota => /andP[_ Hk'].
by rewrite (negbTE (Hk k Hk')) mul0r.
Qed.

Lemma to_sparse_cols (s : seq nat) p : (p < prods s)%N ->
  column [seq [seq nth 0%N (unravel s p) k | p <- iota 0 (prods s)] | k <- iota 0 (size s)] p
  = unravel s p.
Proof.
move=> Hp; rewrite /column -map_comp.
apply: (@eq_from_nth _ 0%N); rewrite size_map size_iota ?(inb_size (inb_unravel Hp)) //.
move=> k Hk; rewrite (nth_map 0%N) ?size_iota //= (nth_map 0%N) ?size_iota //.
by rewrite !nth_iota.
Qed.

Lemma to_sparseE (a : arr) : nwf a -> wf (to_sparse a) /\ same_tensor (to_sparse a) (Dense a).
Proof.
move=> Ha; have Es : size (ndata a) = prods (nshape a) by apply/eqP.
split.
  apply/andP; split; first (apply/and3P; split).
  - by rewrite size_map size_iota.
  - by apply/allP => r /mapP[k _ ->]; rewrite size_map size_iota Es.
  - apply/allP => p; rewrite mem_iota Es => /andP[_ Hp].
    by rewrite to_sparse_cols // inb_unravel.
  rewrite /= /norep Es (_ : map _ _ = [seq unravel (nshape a) p | p <- iota 0 (prods (nshape a))]).
    rewrite map_inj_in_uniq ?iota_uniq // => p q; rewrite !mem_iota => /andP[_ Hp] /andP[_ Hq] E.
    by rewrite -(ravelK Hp) E ravelK.
  by apply/eq_in_map => p; rewrite mem_iota => /andP[_ Hp]; rewrite to_sparse_cols.
split=> // i /= Hi; rewrite Es /get.
rewrite -(sum_nat_delta (fun p => nth 0 (ndata a) p) (ravel_lt Hi)).
apply: eq_big_nat => p /= Hp; congr (_ * _); congr ((nat_of_bool _)%:R).
rewrite to_sparse_cols //; apply/eqP/eqP => [<-|->]; first by rewrite ravelK.
by rewrite unravelK.
Qed.

Lemma obs_to_sparse (a : arr) : nwf a -> to_numpy (to_sparse a) = Ok a.
Proof. by move=> Ha; have [H1 H2] := to_sparseE Ha; rewrite (to_numpy_same H1 (Ha : wf (Dense a)) H2). Qed.

(* C08 *)
Lemma obs_tt_add cs1 cs2 : wf_tt cs1 -> wf_tt cs2 -> (2 <= size cs1)%N ->
  tshape (TT cs1 : tensor) = tshape (TT cs2) ->
  exists cs a b c,
  [/\ tt_add cs1 cs2 = Ok cs, wf_tt cs, to_numpy (TT cs1) = Ok a, to_numpy (TT cs2) = Ok b
    & to_numpy (TT cs) = Ok c] /\
  [/\ tshape (TT cs) = tshape (TT cs1),
      tt_rank cs = [seq (p.1 + p.2)%N | p <- zip (tt_rank cs1) (tt_rank cs2)] &
      forall i, inb (tshape (TT cs1)) i -> get c i = get a i + get b i].
Proof.
move=> W1 W2 Hs ES; have [cs E [W Sh Rk D]] := tt_addE W1 W2 Hs ES.
have [a Ea [H1 H2 H3]] := tt_to_numpyE W1; have [b Eb [H4 H5 H6]] := tt_to_numpyE W2.
have [c Ec [H7 H8 H9]] := tt_to_numpyE W.
exists cs, a, b, c; split=> //; split=> // i Hi.
by rewrite H9 ?Sh // D // H3 // H6 // -ES.
Qed.

End Obs.
