(* Property C44: round_tt_sum (tt_gmres.py:260-305).  [pos_sum s X]: X is a TensorSum of at least
   one train of shape s, all mode sizes and ranks positive.  [within s rk Y]: Y is a well-formed
   train of shape s whose k-th rank is between 1 and max(1, rk_k) (RoundSumThy.v). *)
From Coq Require Import String Ascii NArith.
From mathcomp Require Import all_ssreflect all_algebra.
From mathcomp Require Import zify.
From Verif Require Import Py Nd Utils Tensor TensorNum Sketch Mpo Gmres Spec LinSpec RecSpec RoundSpec SkSpec MpoSpec GmresSpec.
From Verif Require Import NdThy Ein TensorThy TensorThy2 TensorThy3 ChainThy SweepThy RoundThy RoundThy2 TrimThy SkThy1 SkThy10 SkThy12 SkThy13 SkThy14.
From Verif Require Import GmresThy1 RoundSumThy Prop_Num Prop_Sketch Prop_Sketch3 Prop_Recovery Prop_Orth.
Set Implicit Arguments. Unset Strict Implicit. Unset Printing Implicit Defensive.
Import GRing.Theory Num.Theory.
Local Open Scope ring_scope.

Section RoundSum.
Variable R : rcfType.
Notation arr := (nd R).
Notation tensor := (tensor R).
Notation allpos := (all (fun n => 0 < n)%N).
Variables (qr : arr -> res (arr * arr)) (svd : arr -> res (arr * arr * arr)).
Variable to_normal : N -> R.
Variable tt_random : seq nat -> seq nat -> N -> seq arr.
Variable stream : N -> nat -> R.
Variable offset : N -> nat -> N.
Variable right_seed_of : N -> nat -> N.
Variable lstsq : arr -> arr -> res arr.
Variable qr_econ : arr -> res (arr * arr).
Hypotheses (qrP : qr_contract qr) (svdP : svd_contract svd).
Hypotheses (lstsqP : lstsq_contract lstsq) (qr_econP : qr_contract qr_econ) (rndP : tt_random_ok tt_random).
Notation round_tt_sum := (round_tt_sum qr svd to_normal tt_random stream offset right_seed_of lstsq qr_econ).

(* "exact": within the budget, and the orthogonal projection of the sum:
   ||X - Y||^2 = ||X||^2 - ||Y||^2 *)
Theorem C44_exact ent X s max_rank rk eps f x : pos_sum s X -> (1 < size s)%N ->
  process_tt_rank max_rank s false = Ok rk -> to_numpy X = Ok x ->
  or_linalg (round_tt_sum ent X max_rank eps RExact f) (fun Y => within s rk Y /\
    exists2 y, to_numpy Y = Ok y & nshape y = nshape x /\
      sum_idx s (fun i => (get x i - get y i) ^+ 2) = sum_idx s (fun i => get x i ^+ 2) - sum_idx s (fun i => get y i ^+ 2)).
Proof.
move=> hX s1 hp ex; have [wX sX] := train_sum_wf (pos_sum_train hX).
have [x' ex' [wx shx gx]] := to_numpyE wX; move: ex'; rewrite ex => -[ex']; rewrite -{x'}ex' sX in wx shx gx.
move: hX ex wX sX gx => /pos_sumP[Xs -> [n h]] ex wX _ gx; rewrite /Gmres.round_tt_sum [tensors_of _]/=; cbn [bind].
have [cs -> [w e p g]] := add_all_sum s1 n h; cbn [bind].
have s0 : (0 < size s)%N by clear -s1; lia.
have [rk' hp'] := process_true hp.
have ra : round_args cs (Some max_rank) false by split=> //; exists rk'; rewrite e.
have hw := @tt_round_within _ _ _ qrP svdP cs eps max_rank s rk s0 w e p hp.
have := C14_projection eps qrP svdP ra; move: hw.
case: (tt_round _ _ _ _ _ _) => [out|//] hw [a [b [ea eb sb eq]]]; rewrite /or_linalg; cbn [bind]; split=> //.
have eax : a = x.
  have [a' ea' [wa sa ga]] := to_numpyE (w : wf (TT cs)); move: ea'; rewrite ea => -[ea']; rewrite -{a'}ea' in wa sa ga.
  apply: nd_ext => //; first by rewrite sa shx [LHS]e.
  rewrite sa => i hi; rewrite ga // g -?e //; have hi' : inb s i by rewrite -e.
  by rewrite gx // den_sum.
exists b => //; rewrite -eax; split=> //; by move: eq; rewrite eax shx.
Qed.

(* "pairwise", at least two summands *)
Theorem C44_pairwise ent X s Xs max_rank rk eps f : X = TSum s Xs -> pos_sum s X -> (1 < size Xs)%N -> (1 < size s)%N ->
  process_tt_rank max_rank s false = Ok rk ->
  or_linalg (round_tt_sum ent X max_rank eps RPairwise f) (within s rk).
Proof.
move=> -> /pos_sumP[_ [<-] [_ h]] n s1 hp; rewrite /Gmres.round_tt_sum [tensors_of _]/=; cbn [bind].
case: Xs n h => [|X0 Xs] //; case: Xs => [|X1 Xs] // _ /andP[/pos_trainP[cs -> [w e p]] h].
rewrite [add_all _ _]/=; apply: or_bind; first exact: (@pair_fold _ _ _ qrP svdP s (X1 :: Xs) cs eps max_rank rk s1 hp w e p h).
by move=> cs' [_ _ _ hw]; apply: hw; left.
Qed.

(* "pairwise", one summand: returned as it is, whatever max_rank and eps *)
Theorem C44_pairwise_single ent s cs max_rank eps f :
  round_tt_sum ent (TSum s [:: TT cs]) max_rank eps RPairwise f = Ok (TT cs).
Proof. by []. Qed.

(* method=None returns the sum itself; any other method name is rejected *)
Theorem C44_none ent X max_rank eps f : round_tt_sum ent X max_rank eps RNone f = Ok X /\
  round_tt_sum ent X max_rank eps ROther f = Err ValueError.
Proof. by []. Qed.

Lemma sum_right_ok s (X : tensor) : pos_sum s X -> right_ok X.
Proof.
case/pos_sumP=> Xs -> [_]; elim: Xs => //= Y Ys IH /andP[/pos_trainP[cs -> _] h] /=; exact: IH.
Qed.

Lemma sum_allpos s (X : tensor) : pos_sum s X -> allpos s.
Proof.
case/pos_sumP=> -[|Y Ys] _ [// _ /andP[/pos_trainP[cs _ [w <- p]] _]].
by move: p; rewrite (pos_ttE w) => /andP[].
Qed.

Lemma oversampled_ok s lk p q : allpos s -> (0 < size s)%N -> size lk = (size s).-1 -> allpos lk -> (0 < q < p)%N ->
  [/\ process_tt_rank (RTuple lk) s false = Ok lk, process_tt_rank (RTuple (oversampled (p, q) lk)) s false = Ok (oversampled (p, q) lk),
      allpos (oversampled (p, q) lk) & forall mu, (mu < (size s).-1)%N -> (nth 0 lk mu < nth 0 (oversampled (p, q) lk) mu)%N].
Proof.
move=> hs s0 sl hl /andP[q0 qp]; split; rewrite ?process_rtuple //; first by rewrite size_map.
  by rewrite all_map; apply: sub_all hl => r r0 /=; apply: ltn_trans (ceil_mul_gt r0 q0 qp).
move=> mu hm; rewrite (nth_map 0%N) ?sl //; apply: ceil_mul_gt => //.
by move/(all_nthP 0%N): hl; apply; rewrite sl.
Qed.

(* for any tensor that can be sketched *)
Lemma sketch_any ent X s max_rank rk eps p q x : wf X -> tshape X = s -> right_ok X -> allpos s -> (1 < size s)%N -> (0 < q < p)%N ->
  process_tt_rank max_rank s false = Ok rk -> allpos rk -> to_numpy X = Ok x ->
  or_linalg (round_tt_sum ent X max_rank eps RSketch (p, q)) (within s rk) /\
  exists lk st, [/\ lk = trim_ranks s rk,
    stream_sketch to_normal tt_random stream offset right_seed_of lstsq qr_econ X (RTuple lk)
      (RTuple (oversampled (p, q) lk)) None None None None None ent = Ok st &
    rank_condition (left_drm st) (right_drm st) s (get x) (sketch_ st) ->
    or_linalg (round_tt_sum ent X max_rank eps RSketch (p, q)) (fun Y => to_numpy Y = Ok x)].
Proof.
move=> wX sX rX hs s1 qp hp hk ex; subst s; have s0 : (0 < size (tshape X))%N by clear -s1; lia.
have [lk hl] := process_true hp; have [elk slk plk blk] := process_trim hs hp hk hl.
have [pl pr por lt] := oversampled_ok hs s0 slk plk qp.
rewrite /Gmres.round_tt_sum hl; cbn [bind].
have [st est rec] := @C28_stream_sketch_default R to_normal tt_random stream offset right_seed_of lstsq qr_econ lstsqP
   X x (RTuple lk) (RTuple (oversampled (p, q) lk)) lk (oversampled (p, q) lk) None ent false rndP wX ex rX s1 hs pl pr plk por lt.
split; last by exists lk, st; split=> // rc; rewrite est; cbn [bind]; apply: or_bind (rec rc) _ => cs.
have [b [eb rb]] := rank_gtE s1 pr pl; have [b' [eb' rb']] := rank_gtE s1 pl pr.
have d0 : (0 < (size (tshape X)).-1)%N by clear -s1; lia.
have hb : b = true by apply/rb.
have hb' : b' = false by apply: gt_sym d0 lt rb'.
have [||D [E [eDE [_ mD cD bD] [_ mE cE _] [p1 p2]]]] := @make_newE R tt_random stream offset right_seed_of rndP (tshape X) (RTuple lk)
  (RTuple (oversampled (p, q) lk)) lk (oversampled (p, q) lk) None None None ent true false s1 hs pl pr plk por; [by split|by split|].
rewrite /trim_if in mD mE p1 p2 bD; have [[sD tD gD rD] _] := made_good rndP mD; have [[sE tE gE rE] srE] := made_good rndP mE.
have fD : fits D (size (tshape X)).-1 X by apply: (fits_tt rndP X mD cD p1).
have fE : fits E (size (tshape X)).-1 X by apply: (fits_tt rndP X mE cE p2).
have hpr : pair_ok D E (tshape X) by [].
have [c ec _] := gs_isk to_normal lstsq qr_econ (wf_gen_rep wX) s1 hpr fD fE (rX : order_ok true X).
rewrite /stream_sketch eb eb' hb hb'; cbn [bind negb andb]; rewrite eDE; cbn [bind fst snd]; rewrite ec; cbn [bind].
have pD : allpos (d_rank D) by rewrite rD.
have pE : allpos (d_rank E) by rewrite rE /SkThy9.flip all_rev.
apply: or_bind (C27_to_tt lstsqP Auto (wf_gen_rep wX) s1 hpr fD fE (rX : order_ok true X) hs pD pE ec) _ => cs [w e er].
exists cs => //; split=> //; first by rewrite /tt_rank size_map size_behead -(size_map (fun C : arr => dim C 1%N) cs) [map _ _]e.
have rr : rev (d_rank E) = oversampled (p, q) lk by rewrite rE /SkThy9.flip revK.
have sD' : size (trim_ranks (tshape X) lk) = (size (tshape X)).-1 by have [-> _] := bD.
have -> : tt_rank cs = trim_ranks (tshape X) lk.
  rewrite er rr rD /=; case: ifP => // /(all_zipP); rewrite sD' size_map slk => h.
  have d0' : (0 < size (tshape X) - 1)%N by rewrite subn1.
  have := h _ erefl erefl 0%N d0; have := lt 0%N d0; have := SkThy14.below_nth 0 bD.
  by clear => h1 h2 h3; have := leq_ltn_trans h1 (ltn_trans h2 h3); rewrite ltnn.
move=> k hk'; have p1' : (0 < nth 0 (trim_ranks (tshape X) lk) k)%N by move/(all_nthP 0%N): p1; apply; rewrite sD'.
rewrite p1' /=; apply: leq_trans (SkThy14.below_nth k bD) _; apply: leq_trans (SkThy14.below_nth k blk) _.
exact: leq_maxr.
Qed.

(* "sketch" with an oversampling factor p/q > 1: within the budget; and exact under the rank
   condition of C28 on the random matrices st it draws *)
Theorem C44_sketch ent X s max_rank rk eps p q x : pos_sum s X -> (1 < size s)%N -> (0 < q < p)%N ->
  process_tt_rank max_rank s false = Ok rk -> allpos rk -> to_numpy X = Ok x ->
  or_linalg (round_tt_sum ent X max_rank eps RSketch (p, q)) (within s rk) /\
  exists lk st, [/\ lk = trim_ranks s rk,
    stream_sketch to_normal tt_random stream offset right_seed_of lstsq qr_econ X (RTuple lk)
      (RTuple (oversampled (p, q) lk)) None None None None None ent = Ok st &
    rank_condition (left_drm st) (right_drm st) s (get x) (sketch_ st) ->
    or_linalg (round_tt_sum ent X max_rank eps RSketch (p, q)) (fun Y => to_numpy Y = Ok x)].
Proof.
by move=> hX; have [wX sX] := train_sum_wf (pos_sum_train hX); apply: sketch_any => //; [exact: sum_right_ok hX|exact: sum_allpos hX].
Qed.

(* for any tensor that can be sketched *)
Lemma orth_any ent X s max_rank rk eps p q x : wf X -> tshape X = s -> right_ok X -> allpos s -> (1 < size s <= 102)%N -> (0 < q < p)%N ->
  process_tt_rank max_rank s false = Ok rk -> allpos rk -> to_numpy X = Ok x ->
  or_linalg (round_tt_sum ent X max_rank eps ROrthSketch (p, q)) (fun Y => within s rk Y /\
    exists2 cs, Y = TT cs & orth_result s (trim_ranks s rk) x cs).
Proof.
move=> wX sX rX hs /andP[s1 s102] qp hp hk ex; subst s; have s0 : (0 < size (tshape X))%N by clear -s1; lia.
have [lk hl] := process_true hp; have [elk slk plk blk] := process_trim hs hp hk hl.
have [pl pr por lt] := oversampled_ok hs s0 slk plk qp.
rewrite /Gmres.round_tt_sum hl; cbn [bind].
have d102 : (1 < size (tshape X) <= 102)%N by rewrite s1.
have [_ [_ [_ [_ _ _ h _]]]] := @C29_orthogonal_sketch_default R to_normal tt_random stream offset right_seed_of lstsq qr_econ lstsqP qr_econP
   X x (RTuple lk) (RTuple (oversampled (p, q) lk)) lk (oversampled (p, q) lk) None ent rndP wX ex rX d102 hs pl pr plk por lt.
have [_ srk] := SkThy9.process_size hp erefl.
have [_ _ _ idem] := trim_main hs hk s0 srk s102; rewrite elk idem -elk in h.
rewrite -elk; apply: or_bind h _ => cs h; split; last by exists cs.
have [w e er _ _] := h; exists cs => //; split=> //; rewrite er // => k hk'.
have -> : (0 < nth 0 lk k)%N by move/(all_nthP 0%N): plk; apply; rewrite slk.
by apply: leq_trans (SkThy14.below_nth k blk) _; apply: leq_maxr.
Qed.

(* "orth_sketch": likewise, for at most 102 modes (because of trim_ranks, C17) *)
Theorem C44_orth_sketch ent X s max_rank rk eps p q x : pos_sum s X -> (1 < size s <= 102)%N -> (0 < q < p)%N ->
  process_tt_rank max_rank s false = Ok rk -> allpos rk -> to_numpy X = Ok x ->
  or_linalg (round_tt_sum ent X max_rank eps ROrthSketch (p, q)) (fun Y => within s rk Y /\
    exists2 cs, Y = TT cs & orth_result s (trim_ranks s rk) x cs).
Proof.
by move=> hX; have [wX sX] := train_sum_wf (pos_sum_train hX); apply: orth_any => //; [exact: sum_right_ok hX|exact: sum_allpos hX].
Qed.

(* an oversampling factor of at most 1 is rejected by "orth_sketch", and one of 1 by "sketch" *)
Theorem C44_factor_rejected ent X s max_rank rk eps p q : pos_sum s X -> (1 < size s)%N -> (0 < q)%N -> (p <= q)%N ->
  process_tt_rank max_rank s false = Ok rk ->
  round_tt_sum ent X max_rank eps ROrthSketch (p, q) = Err ValueError /\
  (p = q -> round_tt_sum ent X max_rank eps RSketch (p, q) = Err ValueError).
Proof.
move=> hX s1 q0 pq hp; have [wX sX] := train_sum_wf (pos_sum_train hX); subst s.
have hs := sum_allpos hX; have s0 : (0 < size (tshape X))%N by clear -s1; lia.
have d0 : (0 < (size (tshape X)).-1)%N by clear -s1; lia.
have [lk hl] := process_true hp; have [slk _] := process_leq 0 hs s0 hp hl.
have pl := process_rtuple s0 slk.
have so : size (oversampled (p, q) lk) = (size (tshape X)).-1 by rewrite size_map.
have pr := process_rtuple s0 so.
have le : (nth 0 (oversampled (p, q) lk) 0 <= nth 0 lk 0)%N by rewrite (nth_map 0%N) ?slk //; apply: ceil_mul_le.
rewrite /Gmres.round_tt_sum hl; cbn [bind]; split=> [|epq].
  rewrite (@C46_orthogonal_rejects R to_normal tt_random stream offset right_seed_of lstsq qr_econ X _ _ lk (oversampled (p, q) lk)) //.
  by exists 0%N.
rewrite (@C46_stream_rejects R to_normal tt_random stream offset right_seed_of lstsq qr_econ X _ _ lk (oversampled (p, q) lk)) //.
  exists 0%N => //; rewrite (nth_map 0%N) ?slk // /ceil_mul /= epq leq_divRL //; clear; lia.
by exists 0%N.
Qed.

(* The budget is not respected by "pairwise" for a single summand: here max_rank = 1, the
   summand has rank 2 and is returned as it is. *)
Definition big_train : seq arr := [:: zeros R [:: 1; 3; 2]; zeros R [:: 2; 3; 1]]%N.
Theorem C44_pairwise_single_refuted ent eps f : exists X,
  [/\ pos_sum [:: 3; 3]%N X, process_tt_rank (RInt 1) [:: 3; 3]%N false = Ok [:: 1%N] &
      exists2 Y, round_tt_sum ent X (RInt 1) eps RPairwise f = Ok Y & ~ within [:: 3; 3]%N [:: 1%N] Y].
Proof.
exists (TSum [:: 3; 3]%N [:: TT big_train]); split=> //.
exists (TT big_train) => //; case=> _ [<-] [_ _ _ /(_ 0%N erefl)].
by rewrite /tt_rank.
Qed.
End RoundSum.

(* the hypotheses are satisfiable: two summands of ranks 2 and 1, max_rank = 2 *)
Example C44_nonvacuous (R : rcfType) : pos_sum [:: 3; 3]%N (TSum [:: 3; 3]%N [:: TT (big_train R); TT [:: zeros R [:: 1; 3; 1]; zeros R [:: 1; 3; 1]]%N])
  /\ process_tt_rank (RInt 2) [:: 3; 3]%N false = Ok [:: 2%N].
Proof. by []. Qed.
Print Assumptions C44_exact.
Print Assumptions C44_pairwise.
Print Assumptions C44_pairwise_single.
Print Assumptions C44_none.
Print Assumptions C44_sketch.
Print Assumptions C44_orth_sketch.
Print Assumptions C44_factor_rejected.
Print Assumptions C44_pairwise_single_refuted.
