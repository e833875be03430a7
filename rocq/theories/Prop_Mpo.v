(* Properties C40 and C41: matrix product operators.  The matrix of an MPO object A is
   A.to_numpy(), whose index is i1, j1, i2, j2, ... (i: input modes, j: output modes). *)
From mathcomp Require Import all_ssreflect all_algebra.
From mathcomp Require Import zify.
From Verif Require Import Py Nd Utils Tensor Spec Mpo MpoSpec.
From Verif Require Import NdThy Ein TensorThy TensorThy2 ChainThy DotThy MpoThy Ex.
Set Implicit Arguments. Unset Strict Implicit. Unset Printing Implicit Defensive.
Import GRing.Theory.
Local Open Scope ring_scope.

Section Mpo.
Variable R : comRingType.
Notation arr := (nd R).
Implicit Types (ms cs : seq arr).

Lemma callE ms cs : wf_mpo ms -> wf_tt cs -> mpo_in ms = tshape (TT cs) ->
  exists2 ys, mpo_call ms cs = Ok ys &
  [/\ wf_tt ys, tshape (TT ys) = mpo_out ms,
      tt_rank ys = [seq (p.1 * p.2)%N | p <- zip (mpo_rank ms) (tt_rank cs)] &
      forall j, inb (mpo_out ms) j -> den (TT ys) j = sum_idx (mpo_in ms) (fun i => mden ms i j * den (TT cs) i)].
Proof.
move=> /andP[n0 lm] /andP[n1 lc] e; have [ys ey [ly sy dy ry gy]] := mpo_callE lm lc e.
exists ys => //; split=> //.
- rewrite /wf_tt ly andbT /nilp sy; exact: n0.
- rewrite /tt_rank /mpo_rank; case: ms ys cs ry n1 n0 {ey sy dy gy lm ly lc e} => [|M ms] [|Y ys] [|C cs] //=.
  by move=> [_ ->] _ _.
by move=> j hj; have := gy j 0%N 0%N hj isT isT; rewrite mul0n.
Qed.

(* ---- C40: A(x) is the product of the matrix of A with x ---- *)
Theorem C40_call ms cs : wf_mpo ms -> wf_tt cs -> mpo_in ms = tshape (TT cs) ->
  exists ys A x b, [/\ mpo_call ms cs = Ok ys,
    [/\ wf_tt ys, tshape (TT ys) = mpo_out ms &
        tt_rank ys = [seq (p.1 * p.2)%N | p <- zip (mpo_rank ms) (tt_rank cs)]],
    [/\ mpo_to_numpy ms = Ok A, to_numpy (TT cs) = Ok x & to_numpy (TT ys) = Ok b] &
    nshape A = weave (mpo_in ms) (mpo_out ms) /\
    forall j, inb (mpo_out ms) j -> get b j = sum_idx (mpo_in ms) (fun i => get A (weave i j) * get x i)].
Proof.
move=> wm wc e; have [ys ey [wy sy ry gy]] := callE wm wc e.
have [A eA [wA sA gA]] := mpo_to_numpyE wm.
have [x ex [wx sx gx]] := to_numpyE (wc : wf (TT cs)); have [b eb [wb sb gb]] := to_numpyE (wy : wf (TT ys)).
exists ys, A, x, b; split=> //; split=> // j hj; rewrite gb ?sy // gy //.
by apply: eq_sum_idx => i hi; rewrite gA // gx // -e.
Qed.

(* ---- the identity ---- *)
Theorem C40_eye cs : wf_tt cs -> exists ms ys a, [/\ mpo_eye R (tshape (TT cs)) = Ok ms,
  mpo_call ms cs = Ok ys, wf_tt ys /\ tshape (TT ys) = tshape (TT cs) &
  to_numpy (TT cs) = Ok a /\ to_numpy (TT ys) = Ok a].
Proof.
move=> wc; set s := tshape (TT cs); have [ml [mi mo]] := eye_links R s.
have wm : wf_mpo [seq eye4 R n | n <- s].
  by rewrite /wf_mpo ml andbT /nilp !size_map; case/andP: wc.
have [ys ey [wy sy ry gy]] := callE wm wc mi; rewrite mo in sy gy; rewrite mi in gy.
have [x ex [wx sx gx]] := to_numpyE (wc : wf (TT cs)); have [b eb [wb sb gb]] := to_numpyE (wy : wf (TT ys)).
exists [seq eye4 R n | n <- s], ys, x; split=> //; first exact: mpo_eyeE.
split=> //; rewrite eb; congr Ok; apply: nd_ext => //; first by rewrite sb sy sx.
rewrite sb sy => i hi; rewrite gb ?sy // gy // gx //.
rewrite -[RHS](sum_idx_delta (den (TT cs)) hi); apply: eq_sum_idx => k hk.
by rewrite /mden eye_chain.
Qed.

(* ---- transposition: A.T has the transposed matrix, and <A x, y> = <x, A.T y> ---- *)
Theorem C40_transpose ms : wf_mpo ms -> exists mt A B, [/\ mpo_T ms = Ok mt,
  [/\ wf_mpo mt, mpo_in mt = mpo_out ms & mpo_out mt = mpo_in ms],
  mpo_to_numpy ms = Ok A, mpo_to_numpy mt = Ok B &
  forall i j, inb (mpo_in ms) i -> inb (mpo_out ms) j -> get B (weave j i) = get A (weave i j)].
Proof.
move=> wm; have /andP[n0 lm] := wm; have [e [lt [h1 h2]]] := mpo_TE lm.
have wt : wf_mpo [seq mflip M | M <- ms] by rewrite /wf_mpo lt andbT /nilp size_map.
have [A eA [wA sA gA]] := mpo_to_numpyE wm; have [B eB [wB sB gB]] := mpo_to_numpyE wt.
exists [seq mflip M | M <- ms], A, B; split=> // i j hi hj.
by rewrite gA // gB ?h1 ?h2 // /mden (mchain_T _ lm).
Qed.

Theorem C40_adjoint ms mt xs ys : wf_mpo ms -> wf_tt xs -> wf_tt ys ->
  mpo_in ms = tshape (TT xs) -> mpo_out ms = tshape (TT ys) -> mpo_T ms = Ok mt ->
  exists Ax Aty v, [/\ mpo_call ms xs = Ok Ax, mpo_call mt ys = Ok Aty,
    tt_dot Ax ys = Ok v & tt_dot xs Aty = Ok v].
Proof.
move=> wm wx wy ex ey et; have /andP[n0 lm] := wm; have [e [lt [h1 h2]]] := mpo_TE lm.
have emt : mt = [seq mflip M | M <- ms] by move: et; rewrite e => -[].
have wt : wf_mpo mt by rewrite emt /wf_mpo lt andbT /nilp size_map.
rewrite -emt in h1 h2.
have [Ax eAx [wAx sAx _ gAx]] := callE wm wx ex.
have [Aty eAty [wAty sAty _ gAty]] := callE wt wy (etrans h1 ey).
exists Ax, Aty, (inner (TT Ax) (TT ys)); split=> //; first by rewrite tt_dotE // sAx.
rewrite tt_dotE // ?sAty ?h2 //; congr Ok; rewrite /inner sAx -ex.
transitivity (sum_idx (mpo_out ms) (fun j => sum_idx (mpo_in ms) (fun i => den (TT xs) i * mden ms i j * den (TT ys) j))).
  rewrite sum_idx_exch; apply: eq_sum_idx => i hi; rewrite gAty ?h2 // -sum_idxZ h1; apply: eq_sum_idx => j hj.
  by rewrite emt /mden (mchain_T _ lm) // mulrA.
apply: eq_sum_idx => j hj; rewrite gAx // -sum_idxZr; apply: eq_sum_idx => i hi.
by rewrite [den _ i * _]mulrC.
Qed.

(* ---- to_tt: a train with the pairs of input and output indices merged ---- *)
Theorem C40_to_tt ms : wf_mpo ms -> exists cs A a, [/\ mpo_to_tt ms = Ok cs,
  [/\ wf_tt cs, tshape (TT cs) = mpo_shape ms & tt_rank cs = mpo_rank ms],
  mpo_to_numpy ms = Ok A, to_numpy (TT cs) = Ok a &
  forall i j, inb (mpo_in ms) i -> inb (mpo_out ms) j ->
    get a (merge_idx (mpo_out ms) i j) = get A (weave i j)].
Proof.
move=> wm; have /andP[n0 lm] := wm; have [cs e [lc d1 d0 sc g]] := mpo_to_ttE lm.
have wc : wf_tt cs by rewrite /wf_tt lc andbT /nilp sc; exact: n0.
have [A eA [wA sA gA]] := mpo_to_numpyE wm; have [a ea [wa sa ga]] := to_numpyE (wc : wf (TT cs)).
exists cs, A, a; split=> //.
  by split=> //; rewrite /tt_rank /mpo_rank -!behead_map d0.
move=> i j hi hj; rewrite gA // ga /=; first by rewrite /mden g.
rewrite d1 /mpo_shape; clear -hi hj.
elim: ms i j hi hj => [|M ms IH] [|k i] [|l j] //= /andP[hk hi] /andP[hl hj].
by rewrite IH // andbT SweepThy.flat_lt.
Qed.

(* ---- A.size counts the numbers stored; A.T and A * c store as many, A.to_tt() the same ---- *)
Lemma size_links ms a b : mlinks a ms b -> ms != [::] -> mpo_size ms =
  (\sum_(0 <= k < size ms) nth 0 (a :: mpo_rank ms) k * nth 0 (mpo_in ms) k * nth 0 (mpo_out ms) k * nth 0 (rcons (mpo_rank ms) b) k)%N.
Proof.
case: ms => [|M ms] // + _; rewrite /mpo_size /mpo_rank [behead _]/=.
elim: ms a M => [|M' ms IH] a M.
  by case/and3P=> _ /eqP sM /eqP e; rewrite big_nat1 /= sM /= -e !muln1 addn0 !mulnA.
case/and3P=> _ /eqP sM l; rewrite -/(mlinks _ _ _) in l.
have e0 : dim M' 0 = dim M 3 by case/and3P: l => _ /eqP s' _; rewrite /dim s'.
have h := IH _ _ l; rewrite [size _]/= big_nat_recl // -[sumn _]/(prods (nshape M) + sumn [seq prods (nshape M) | M <- M' :: ms])%N h.
congr (_ + _)%N; first by rewrite sM /= e0 !muln1 !mulnA.
by apply: eq_bigr => k _ /=; case: k => [|k] /=; rewrite ?e0.
Qed.
Theorem C40_size ms : wf_mpo ms -> mpo_size ms =
  (\sum_(0 <= k < size ms) nth 0 (1 :: mpo_rank ms) k * nth 0 (mpo_in ms) k * nth 0 (mpo_out ms) k * nth 0 (rcons (mpo_rank ms) 1) k)%N.
Proof. by case/andP => n0 l; apply: (size_links l); case: (ms) n0. Qed.
Theorem C40_size_kept ms c mt cs self' prod : wf_mpo ms -> mpo_T ms = Ok mt -> mpo_to_tt ms = Ok cs ->
  mpo_mul ms c = Ok (self', prod) ->
  [/\ mpo_size mt = mpo_size ms, mpo_size prod = mpo_size ms & sumn [seq prods (nshape C) | C <- cs] = mpo_size ms].
Proof.
move=> /andP[_ lm] eT eC eM; split.
- have [e _] := mpo_TE lm; move: eT; rewrite e => -[<-]; rewrite /mpo_size -map_comp; congr sumn.
  have : all (fun M : arr => size (nshape M) == 4%N) ms.
    suff H l a b : mlinks a l b -> all (fun M : arr => size (nshape M) == 4%N) l by apply: H lm.
    by elim: l a => [|M l IH] a //= /and3P[_ /eqP -> /IH ->].
  elim: ms {lm eC eM e} => [|M l IH] //= /andP[/eqP s4 /IH ->]; congr (_ :: _).
  by rewrite /dim; case: (nshape M) s4 => [|x [|y [|z [|w []]]]] //= _; rewrite !muln1; lia.
- by case: ms eM {lm eT eC} => [|M l] //= [_ <-].
move: eC; rewrite /mpo_to_tt /mpo_size => eC; congr sumn.
elim: ms cs {lm eT eM} eC => [|M l IH] cs /=; first by case=> <-.
case eR: (reshape _ _) => [C|] //=; case eL: (mapM _ _) => [cs'|] //= [<-] /=.
by have [-> _ <-] := reshape_ok eR; rewrite (IH _ eL).
Qed.

(* ---- C41: A * c ---- *)
(* the result denotes c A; and A itself denotes c A afterwards *)
Theorem C41_scaling ms c : wf_mpo ms -> exists A self' prod A' B, [/\ mpo_mul ms c = Ok (self', prod),
  [/\ wf_mpo prod, mpo_in prod = mpo_in ms & mpo_out prod = mpo_out ms],
  [/\ mpo_to_numpy ms = Ok A, mpo_to_numpy self' = Ok A' & mpo_to_numpy prod = Ok B],
  (forall i j, inb (mpo_in ms) i -> inb (mpo_out ms) j -> get B (weave i j) = c * get A (weave i j)) &
  A' = B].
Proof.
case: ms => [|M ms] // wm; have /andP[_ /= /and3P[wM /eqP sM lm]] := wm.
have wp : wf_mpo (nscale c M :: ms) by rewrite /wf_mpo /= nwf_tab /= /dim sM /= eqxx.
have [A eA [wA sA gA]] := mpo_to_numpyE wm; have [B eB [wB sB gB]] := mpo_to_numpyE wp.
exists A, (nscale c M :: ms), (nscale c M :: ms), B, B; split=> // i j hi hj.
rewrite gA // gB // /mden; case: i hi => [|k i] // /andP[hk hi]; case: j hj => [|l j] // /andP[hl hj] /=.
rewrite mulr_sumr; apply: eq_big_nat => x /andP[_ hx]; rewrite mulrA; congr (_ * _).
by rewrite /nscale get_tab; [exact: mulrC|rewrite sM /= hk hl hx].
Qed.
End Mpo.

(* a 2 x 3 x 2 -> 2 x 3 x 2 operator of ranks (2, 1) *)
Definition ex_mpo : seq (nd Z) :=
  [:: arrZ [:: 1; 2; 2; 2]%N [:: 1; 0; 2; 1; -1; 1; 0; 3];
      arrZ [:: 2; 3; 3; 1]%N [:: 1; 0; 0; 0; 1; 0; 0; 0; 1; 0; 1; 2; 0; 0; 1; 5; 0; 0];
      arrZ [:: 1; 2; 2; 1]%N [:: 0; 1; 1; 0] ].

(* "A * c leaves A unchanged" is false *)
Theorem C41_mutates_refuted : exists (ms : seq (nd Z)) c self' prod A A',
  [/\ wf_mpo ms, mpo_mul ms c = Ok (self', prod), mpo_to_numpy ms = Ok A, mpo_to_numpy self' = Ok A' & A' <> A].
Proof.
have w : wf_mpo ex_mpo by vm_compute.
have [A [self' [prod [A' [B' [e1 _ [e2 e3 _] e4 _]]]]]] := C41_scaling (3 : Z) w.
exists ex_mpo, (3 : Z), self', prod, A, A'; split; [exact: w|exact: e1|exact: e2|exact: e3|move=> h; rewrite h in e3].
have chk : (if mpo_mul ex_mpo (3 : Z) is Ok (s, _) then
              (if mpo_to_numpy s is Ok a then if mpo_to_numpy ex_mpo is Ok b then ndata a != ndata b else false else false) else false).
  by vm_compute.
by move: chk; rewrite e1 e3 e2 eqxx.
Qed.

(* the hypotheses of C40 are met *)
Example C40_nonvacuous : wf_mpo ex_mpo /\ wf_tt ex_tt /\ mpo_in ex_mpo = tshape (TT ex_tt) /\ mpo_out ex_mpo = tshape (TT ex_tt2).
Proof. by vm_compute. Qed.
Print Assumptions C40_call.
Print Assumptions C40_eye.
Print Assumptions C40_transpose.
Print Assumptions C40_adjoint.
Print Assumptions C40_to_tt.
Print Assumptions C40_size.
Print Assumptions C40_size_kept.
Print Assumptions C41_scaling.
Print Assumptions C41_mutates_refuted.
