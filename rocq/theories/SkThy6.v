(* Left contractions: dense and Tucker formats, and the other DRM classes. *)
From Coq Require Import String Ascii NArith.
From mathcomp Require Import all_ssreflect all_algebra.
From mathcomp Require Import zify.
From Verif Require Import Py Nd NdThy Ein Utils Tensor Hash HashThy HashThy2 Sketch Spec ChainThy TensorThy TensorThy2 GatherThy MatThy SkSpec SkThy1 SkThy2 SkThy3 SkThy4 SkThy5.
From Verif Require Prop_Hash.
Set Implicit Arguments. Unset Strict Implicit. Unset Printing Implicit Defensive.
Import GRing.Theory.
Local Open Scope ring_scope.

Section Leaf2.
Variable R : comRingType.
Variable to_normal : N -> R.
Notation arr := (nd R).
Notation tensor := (tensor R).
Notation drm := (drm R).
Notation C0 := (C0 R).
Implicit Types (X : tensor) (cs ds fs : seq arr) (n mu : nat) (D : drm).

Lemma unsliced_cols D dims n mu : ttd_ok D dims n -> unsliced D n -> (mu < n)%N ->
  drm_cols D mu = dim (nth C0 (d_cores D) mu) 2.
Proof.
move=> [_ _ _ [_ _ _ hw] _] hu hm; have [e1 e2 _] := hu _ hm; have [_ e] := hw _ hm.
by rewrite /drm_cols e e1 e2 subn0.
Qed.

Lemma ttdrm_denseE D (a : arr) n : nwf a -> (n < ndim a)%N -> ttd_ok D (nshape a) n -> unsliced D n ->
  exists2 l, ttdrm_dense D n = Ok l & size l = n /\
  forall mu, (mu < n)%N -> lval (Dense a) mu.+1 (drm_cols D mu)
     (fun i c => chain (take mu.+1 (d_cores D)) i 0 (nth 0 (d_rank_min D) mu + c)%N) (Some (nth C0 l mu)).
Proof.
move=> w nl H hu; have [ns [r L] et hw hr] := H.
set ds := d_cores D in ns L et hr *.
have tst mu : (mu <= n)%N -> tsh (take mu ds) = take mu (nshape a).
  by move=> hm; rewrite -(@take_take _ mu n hm (nshape a)) -et -map_take (take_take hm).
apply: (gen_loopE (P := fun mu pc => left_iface (take mu.+1 ds) pc)
  (Q := fun mu z => lval (Dense a) mu.+1 (drm_cols D mu)
     (fun i c => chain (take mu.+1 ds) i 0 (nth 0 (d_rank_min D) mu + c)%N) (Some z))).
move=> mu st hm hst.
have [L2 wE sE tE] := links_take L ns hm; have [ez em pos] := hu _ hm.
rewrite (pygetE C0) ?(leq_trans hm) //= -/ds.
suff [pc E hpc] : exists2 pc, match st with
    | Some pc => do c <- einsum "ij,jkl->ikl" [:: pc; nth C0 ds mu]; flat_lr c
    | None => flat_lr (nth C0 ds mu) end = Ok pc & left_iface (take mu.+1 ds) pc.
  rewrite E /=; do 2 eexists; split=> //; case: hpc => r' [L' wP sP gP].
  have er : r' = dim (nth C0 ds mu) 2 by apply: links_inj L' (links_take' L ns hm).
  rewrite er in L' sP gP; rewrite (unsliced_cols H hu hm) -/ds ez.
  rewrite tst // in sP gP; split.
    by rewrite /lmat /smat /= nwf_tab /= sP.
  move=> p c hp hc; rewrite /= in hp.
  rewrite /= /gv /= (get_tr sP) // add0n -{1}(ravelK hp) gP ?inb_unravel //.
  rewrite -(@sum_delta_l _ _ _ (fun i => chain (take mu.+1 ds) i 0 c) (inb_unravel hp)).
  apply: eq_sum_idx => i hi; congr (_%:R * _); congr nat_of_bool.
  by apply/eqP/eqP => <-; rewrite ?ravelK ?unravelK.
case: mu st hm hst L2 wE sE tE ez em pos => [|mu] st hm hst L2 wE sE tE ez em pos.
  rewrite hst; have e0' : dim (nth C0 ds 0) 0 = 1%N by apply: links_first L _ _.
  rewrite e0' in sE.
  have [P EP [HP SP GP]] := @flat_lrE _ _ [:: 1; dim (nth C0 ds 0) 1]%N _ wE sE pos.
  exists P => //; rewrite tE take0.
  exists (dim (nth C0 ds 0) 2); split=> //=; rewrite ?wE ?{1}sE ?eqxx //; first by rewrite SP /= mul1n.
  move=> i z /inb1P[k -> Hk] Hz; rewrite -[X in _ = X]/(chain [:: nth C0 ds 0] [:: k] 0 z) chain1 //.
  by have := GP [:: 0%N; k] z; rewrite /= !muln1 !addn0 Hk => ->.
case: hst => pc -> [r' [L' wP sP gP]]; rewrite tE.
have er : r' = dim (nth C0 ds mu.+1) 0 by apply: links_inj L' L2.
rewrite er in sP gP.
have [Q EQ [HQ SQ GQ]] := partial_lr_step L2 wE sE pos wP sP gP.
by exists Q => //; exists (dim (nth C0 ds mu.+1) 2); split=> //; apply: links_rconsI L2 wE sE.
Qed.

(* Tucker format *)
Lemma tprod_rcons fs (U : arr) (j i : seq nat) y k : size j = size fs -> size i = size fs ->
  tprod (rcons fs U) (rcons j y) (rcons i k) = tprod fs j i * get U [:: y; k].
Proof. by move=> h1 h2; rewrite /tprod !zip_rcons ?size_zip ?h1 ?h2 ?minnn // -cats1 big_cat big_seq1. Qed.

Lemma ttdrm_tuckerE D fs (core : arr) n : wf_tucker fs core -> (n < size fs)%N ->
  ttd_ok D [seq dim U 1 | U <- fs] n -> unsliced D n ->
  exists2 l, ttdrm_tucker D fs n = Ok l & size l = n /\
  forall mu, (mu < n)%N -> lval (Tucker fs core) mu.+1 (drm_cols D mu)
     (fun i c => chain (take mu.+1 (d_cores D)) i 0 (nth 0 (d_rank_min D) mu + c)%N) (Some (nth C0 l mu)).
Proof.
move=> w nl H hu; have [ns [r L] et hw hr] := H.
set ds := d_cores D in ns L et hr *; set sh := [seq dim U 1 | U <- fs] in H et *.
apply: (gen_loopE (P := fun mu pc => [/\ nwf pc, nshape pc = [:: prods (take mu.+1 (tranks fs)); dim (nth C0 ds mu) 2] &
   forall j c, inb (take mu.+1 (tranks fs)) j -> (c < dim (nth C0 ds mu) 2)%N ->
     get pc [:: ravel (take mu.+1 (tranks fs)) j; c] = sum_idx (take mu.+1 sh) (fun i =>
        tprod (take mu.+1 fs) j i * chain (take mu.+1 ds) i 0 c)])
  (Q := fun mu z => lval (Tucker fs core) mu.+1 (drm_cols D mu)
     (fun i c => chain (take mu.+1 ds) i 0 (nth 0 (d_rank_min D) mu + c)%N) (Some z))).
move=> mu st hm hst; have hmc : (mu < size fs)%N by lia.
have nd : nth 0%N sh mu = dim (nth C0 ds mu) 1 by apply: nth_dims H _ hm; rewrite size_map ltnW.
have nd' : dim (nth C0 fs mu) 1 = dim (nth C0 ds mu) 1 by rewrite -nd (nth_map C0).
have [wU sU] : nwf (nth C0 fs mu) /\ nshape (nth C0 fs mu) = [:: dim (nth C0 fs mu) 0; dim (nth C0 ds mu) 1].
  by case/and3P: w => _ _ /all_nthP => /(_ C0 mu hmc) /andP[? /eqP ->]; rewrite nd'.
set t := dim (nth C0 fs mu) 0 in sU *.
have tC : take mu.+1 fs = rcons (take mu fs) (nth C0 fs mu) by rewrite (take_nth C0).
have tT : take mu.+1 (tranks fs) = rcons (take mu (tranks fs)) t.
  by rewrite (take_nth 0%N) ?size_map // (nth_map C0).
have [L2 wE sE tE] := links_take L ns hm; have [ez em pos] := hu _ hm.
rewrite (pygetE C0) ?(leq_trans hm) //= (pygetE C0) //= -/ds.
have tsh1 : take mu.+1 sh = rcons (take mu sh) (dim (nth C0 ds mu) 1).
  by rewrite (take_nth 0%N) ?size_map // nd.
suff [pc [E wP sP gP]] : exists pc, [/\ match st with
    | Some pc =>
          do core_reduced <- einsum "jkl,km->jml" [:: nth C0 ds mu; tr (nth C0 fs mu)];
          do c <- einsum "ij,jml->iml" [:: pc; core_reduced]; flat_lr c
    | None =>
          do c <- einsum "ijk,jl->ilk" [:: nth C0 ds mu; tr (nth C0 fs mu)];
          do r0 <- pyget (d_rank D) 0;
          reshape c [:: nth 0%N (tucker_rank fs) 0; r0] end = Ok pc, nwf pc,
    nshape pc = [:: prods (take mu.+1 (tranks fs)); dim (nth C0 ds mu) 2] &
   forall j c, inb (take mu.+1 (tranks fs)) j -> (c < dim (nth C0 ds mu) 2)%N ->
     get pc [:: ravel (take mu.+1 (tranks fs)) j; c] = sum_idx (take mu.+1 sh) (fun i =>
        tprod (take mu.+1 fs) j i * chain (take mu.+1 ds) i 0 c)].
  rewrite E /=; do 2 eexists; split=> //.
  rewrite (unsliced_cols H hu hm) -/ds ez; split.
    by rewrite /lmat /smat /= wP sP /= -/(tranks fs).
  move=> p c hp hc; rewrite /= in hp.
  by rewrite /= /gv /= add0n -{1}(ravelK hp) gP ?inb_unravel.
have sT : nshape (tr (nth C0 fs mu)) = [:: dim (nth C0 ds mu) 1; t] := nshape_tr sU.
have gT k y : (k < dim (nth C0 ds mu) 1)%N -> (y < t)%N -> get (tr (nth C0 fs mu)) [:: k; y] = get (nth C0 fs mu) [:: y; k].
  by move=> hk hy; rewrite (get_tr sU).
case: mu st hm hst hmc nd nd' wU @t sU tC tT L2 wE sE tE ez em pos tsh1 sT gT =>
  [|mu] st hm hst hmc nd nd' wU t sU tC tT L2 wE sE tE ez em pos tsh1 sT gT.
  rewrite hst; have e0' : dim (nth C0 ds 0) 0 = 1%N by apply: links_first L _ _.
  have [_ _ hs3 _] := hw.
  rewrite e0' in sE; rewrite (es_ijk_jl sE sT) /= (pygetE 0%N) ?(leq_trans hm) //=.
  have -> : nth 0%N (d_rank D) 0 = dim (nth C0 ds 0) 2 by exact: (unsliced_cols H hu hm).
  have -> : nth 0%N (tucker_rank fs) 0 = t by rewrite (nth_map C0).
  rewrite resh_1; eexists; split; [by [] | exact: nwf_tab | by rewrite tT take0 /= muln1 |].
  move=> j c; rewrite tT take0 => /inb1P[y -> hy] hc; rewrite /= muln1 addn0 get_tab2 //.
  rewrite tsh1 sum_idx_rcons take0 /=; apply: eq_big_nat => k /andP[_ hk].
  rewrite tC tE !take0 /= sum_nat_delta_r // gT // mulrC; congr (_ * _).
  by rewrite /tprod /= big_seq1.
case: hst => pc -> [wP sP gP]; have e2 := links_next L ns hm; rewrite e2 in sE.
rewrite (es_jkl_km sE sT) /= (@es_ij_jml _ pc _ (prods (take mu.+1 (tranks fs))) (dim (nth C0 ds mu) 2) t (dim (nth C0 ds mu.+1) 2)) //=.
set T := tab3 _ _ _ _.
have [Q EQ [HQ SQ GQ]] := @flat_lrE _ T [:: prods (take mu.+1 (tranks fs)); t] (dim (nth C0 ds mu.+1) 2) (nwf_tab _ _) erefl pos.
exists Q; rewrite EQ tT; split=> //; first by rewrite SQ prods_rcons /= muln1.
move=> x c /inb_rconsP[j [y [-> hj hy]]] hc; rewrite ravel_rcons ?(inb_size hj) //.
have -> : (ravel (take mu.+1 (tranks fs)) j * t + y)%N =
   ravel [:: prods (take mu.+1 (tranks fs)); t] [:: ravel (take mu.+1 (tranks fs)) j; y] by rewrite /= !muln1 addn0.
rewrite GQ /= ?ravel_lt ?hy // get_tab3 ?ravel_lt // tsh1 sum_idx_rcons.
transitivity (\sum_(0 <= xj < dim (nth C0 ds mu) 2)
   \sum_(0 <= xk < dim (nth C0 ds mu.+1) 1) sum_idx (take mu.+1 sh) (fun i =>
     tprod (take mu.+1 fs) j i * chain (take mu.+1 ds) i 0 xj *
      (get (nth C0 fs mu.+1) [:: y; xk] * get (nth C0 ds mu.+1) [:: xj; xk; c]))).
  apply: eq_big_nat => xj hxj; rewrite gP // get_tab3 // big_distrr; apply: eq_big_nat => xk /andP[_ hxk] /=.
  by rewrite gT // sum_idxZr [get (nth C0 fs _) _ * _]mulrC.
under eq_bigr => xj _ do rewrite -sum_idx_big.
rewrite -sum_idx_big; apply: eq_sum_idx => i hi.
have si : size i = mu.+1 by rewrite (inb_size hi) size_takel // size_map ltnW.
have sj : size j = mu.+1 by rewrite (inb_size hj) size_takel // size_map ltnW.
rewrite exchange_big; apply: eq_bigr => k _ /=.
rewrite tC tprod_rcons ?size_takel // ?(ltnW hmc) // (chain_step k L) // e2.
rewrite big_distrr; apply: eq_bigr => xj _ /=.
by rewrite mulrACA.
Qed.

(* ---- the other classes ---- *)
Lemma mapM_iotaE (f : nat -> res arr) n (Q : nat -> arr -> Prop) :
  (forall mu, (mu < n)%N -> exists2 z, f mu = Ok z & Q mu z) ->
  exists2 l, mapM f (iota 0 n) = Ok l & size l = n /\ forall mu, (mu < n)%N -> Q mu (nth C0 l mu).
Proof.
move=> H; suff G k : (forall mu, (k <= mu < k + n)%N -> exists2 z, f mu = Ok z & Q mu z) ->
   exists2 l, mapM f (iota k n) = Ok l & size l = n /\ forall mu, (mu < n)%N -> Q (k + mu)%N (nth C0 l mu).
  exact: (G 0%N).
elim: n k {H} => [|n IH] k H; first by exists [::].
have [|z ez qz] := H k; first by rewrite leqnn addnS ltnS leq_addr.
have [|l el [sl ql]] := IH k.+1; first by move=> mu hm; apply: H; lia.
exists (z :: l); rewrite /= ?ez /= ?el //; split; first by rewrite sl.
by case=> [|mu] hm; rewrite ?addn0 //= -addSnnS; apply: ql.
Qed.

Lemma dense_sparseE D nr s inds (vals : seq R) n : wf_gen nr (Sparse s inds vals) -> (n < size s)%N ->
  mats_ok D s n ->
  exists2 l, dense_sparse D s inds (size vals) n = Ok l & size l = n /\
  forall mu, (mu < n)%N -> lval (Sparse s inds vals) mu.+1 (drm_cols D mu)
     (fun i c => get (nth C0 (d_mats D) mu) [:: c; ravel (take mu.+1 s) i]) (Some (nth C0 l mu)).
Proof.
move=> w nl [hs hm]; case/andP: w => wi _.
apply: (mapM_iotaE (Q := fun mu z => lval (Sparse s inds vals) mu.+1 (drm_cols D mu)
     (fun i c => get (nth C0 (d_mats D) mu) [:: c; ravel (take mu.+1 s) i]) (Some z))) => mu hmu.
have [wM sM] := hm _ hmu.
have hc k : (k < size vals)%N -> inb (take mu.+1 s) (coord (take mu.+1 inds) k).
  by move=> hk; rewrite coordE /column map_take; apply: inb_take (inb_column wi hk).
rewrite /ravel_multi (_ : [&& _, _ & _] = true) /=; last first.
  have /and3P[/eqP hsz hrow _] := wi; rewrite !size_take hsz eqxx andTb; apply/andP; split.
    by apply/allP => row /mem_take /(allP hrow).
  by apply/allP => k; rewrite mem_iota add0n => /hc.
rewrite (pygetE C0) ?(leq_trans hmu) //= (take1E sM); last first.
  by apply/allP => q /mapP[k]; rewrite mem_iota add0n => hk ->; apply/ravel_lt/hc.
eexists; first by []; rewrite size_map size_iota; split; first by rewrite /lmat /smat /= nwf_tab /=.
move=> p c hp hcc; rewrite /= in hp *; rewrite /gv /= get_tab2 // (nth_map 0%N) ?size_iota // nth_iota // add0n.
rewrite coordE /column map_take sum_delta_l //; exact: inb_take (inb_column wi hp).
Qed.

Lemma dense_denseE D (a : arr) n : nwf a -> (n < ndim a)%N -> mats_ok D (nshape a) n ->
  size (take n (d_mats D)) = n /\
  forall mu, (mu < n)%N -> lval (Dense a) mu.+1 (drm_cols D mu)
     (fun i c => get (nth C0 (d_mats D) mu) [:: c; ravel (take mu.+1 (nshape a)) i])
     (Some (nth C0 (take n (d_mats D)) mu)).
Proof.
move=> w nl [hs hm]; split; first by rewrite size_takel.
move=> mu hmu; have [wM sM] := hm _ hmu; rewrite nth_take //.
split; first by rewrite /lmat /smat /= wM sM /=.
move=> p c hp hc; rewrite /= in hp *; rewrite /gv /=.
rewrite -{1}(ravelK hp) -(@sum_delta_l _ _ _ (fun i => get (nth C0 (d_mats D) mu) [:: c; ravel (take mu.+1 (nshape a)) i]) (inb_unravel hp)).
apply: eq_sum_idx => i hi; congr (_%:R * _); congr nat_of_bool.
by apply/eqP/eqP => <-; rewrite ?ravelK ?unravelK.
Qed.

Lemma dense_ttE D cs n : wf_tt cs -> all (fun C => 0 < dim C 2)%N cs -> (n < size cs)%N ->
  mats_ok D (tsh cs) n ->
  exists2 l, dense_tt D cs n = Ok l & size l = n /\
  forall mu, (mu < n)%N -> lval (TT cs) mu.+1 (drm_cols D mu)
     (fun i c => get (nth C0 (d_mats D) mu) [:: c; ravel (take mu.+1 (tsh cs)) i]) (Some (nth C0 l mu)).
Proof.
move=> w pos nl [hs hm]; rewrite /dense_tt.
have [ps -> [sps hps]] /= := partial_dense_lrE w pos.
set zs := take n (zip (d_mats D) ps).
have szs : size zs = n.
  by rewrite size_takel // size_zip leq_min hs sps; lia.
have -> : zs = [seq (nth C0 (d_mats D) mu, nth C0 ps mu) | mu <- iota 0 n].
  apply: (@eq_from_nth _ (C0, C0)); first by rewrite szs size_map size_iota.
  move=> k; rewrite szs => hk; rewrite (nth_map 0%N) ?size_iota // nth_iota // add0n nth_take //.
  by rewrite nth_zip_cond size_zip leq_min // (leq_trans hk hs) sps (_ : (k < _)%N) //; lia.
have -> (f : arr * arr -> res arr) (l : seq nat) (g : nat -> arr * arr) : mapM f (map g l) = mapM (fun x => f (g x)) l.
  by elim: l => //= x l ->.
apply: (mapM_iotaE (Q := fun mu z => lval (TT cs) mu.+1 (drm_cols D mu)
     (fun i c => get (nth C0 (d_mats D) mu) [:: c; ravel (take mu.+1 (tsh cs)) i]) (Some z))) => mu hmu /=.
have [wM sM] := hm _ hmu; have hmc : (mu < size cs)%N by lia.
have [|r [L wP sP gP]] := hps mu; first by rewrite sps; lia.
have [_ _ e2 _] := links_nth (proj2 (andP w)) hmc.
have L' : links 1 (take mu.+1 cs) (nth 1%N [seq dim C 0 | C <- cs] mu.+1).
  by rewrite -e2; apply: (@links_take' _ _ (size cs) 1) => //; rewrite take_size; case/andP: w.
have er := links_inj L L'; rewrite er in sP gP; rewrite /tsh map_take -/(tsh cs) in sP gP.
rewrite (@matmul22 _ _ _ _ _ _ sM sP) /=; eexists; first by [].
split; first by rewrite /lmat /smat /= nwf_tab /= !eqxx.
move=> p c hp hc; rewrite /= in hp; rewrite /= /gv /= (@get_tr _ _ (drm_cols D mu) (nth 1%N [seq dim C 0 | C <- cs] mu.+1)) //.
rewrite get_tab2 // [RHS]sum_idx_flat; apply: eq_big_nat => q /andP[_ hq].
by rewrite -{2}(ravelK hq) gP ?inb_unravel // ravelK // mulrC.
Qed.

Lemma gauss_sparseE D nr s inds (vals : seq R) n : wf_gen nr (Sparse s inds vals) -> (n < size s)%N ->
  win_ok D n ->
  exists2 l, gauss_sparse to_normal D s inds n = Ok l & size l = n /\
  forall mu, (mu < n)%N -> lval (Sparse s inds vals) mu.+1 (drm_cols D mu)
     (fun i c => to_normal (frac (rand_word (take mu.+1 s) i (nth 0 (d_rank_min D) mu + c)%N
        (mod63 (mod63 (N.add (N.of_nat mu) (d_seed D))))))) (Some (nth C0 l mu)).
Proof.
move=> w nl [h1 h2 h3 h4]; case/andP: w => wi _.
apply: (mapM_iotaE (Q := fun mu z => lval (Sparse s inds vals) mu.+1 (drm_cols D mu)
     (fun i c => to_normal (frac (rand_word (take mu.+1 s) i (nth 0 (d_rank_min D) mu + c)%N
        (mod63 (mod63 (N.add (N.of_nat mu) (d_seed D))))))) (Some z))) => mu hmu.
rewrite (pygetE 0%N) ?(leq_trans hmu) //= (pygetE 0%N) ?(leq_trans hmu) //=.
eexists; first by [].
have [_ er] := h4 _ hmu; have := wi => /and3P[/eqP si /allP sr _].
have sh : size (head [::] (take mu.+1 inds)) = size vals.
  case: (inds) si sr => [|row l] /= si sr; first by rewrite -si in nl.
  by apply/eqP/sr; rewrite inE eqxx.
split; first by rewrite /lmat /smat /= nwf_tab /= sh /drm_cols er.
move=> p c hp hc; rewrite /= in hp *; rewrite /gv /= (@get_tr _ _ (size vals) (drm_cols D mu)) //; last first.
  by rewrite /inds_to_normal /= sh /drm_cols er.
rewrite get_tab /= ?sh ?hp /= -?er ?hc // sum_delta_l ?coordE /column ?map_take //.
exact: inb_take (inb_column wi hp).
Qed.

Lemma get_of_ints (A : nd [ringType of int]) i : get (of_ints R A) i = (get A i)%:~R.
Proof.
rewrite /get /of_ints /=; case: (ltnP (ravel (nshape A) i) (size (ndata A))) => h.
  by rewrite (nth_map 0).
by rewrite !nth_default ?size_map.
Qed.

Lemma sign_sparseE D nr s inds (vals : seq R) n : wf_gen nr (Sparse s inds vals) -> (n < size s)%N ->
  sign_ok D n -> (forall k, (k < size vals)%N -> good_coord D s (column inds k) n) ->
  exists2 l, sign_sparse D s inds n = Ok l & size l = n /\
  forall mu, (mu < n)%N -> lval (Sparse s inds vals) mu.+1 (drm_cols D mu)
     (fun i c => match inds_to_sparse_sign [seq [:: k] | k <- i] (take mu.+1 s) (nth 0%N (d_true_rank D) mu) 0
           (nth 0%N (d_true_rank D) mu) (nth 0%N (d_nnz D) mu) (mod63 (N.add (N.of_nat mu) (d_seed D))) with
        | Ok row => (get row [:: 0; nth 0 (d_rank_min D) mu + c]%N)%:~R
        | Err _ => 0 end) (Some (nth C0 l mu)).
Proof.
move=> w nl [h1 h2 [h3 h4 h5 h6] h7] hg; case/andP: w => wi _.
pose F := (fun mu (i : seq nat) c => match inds_to_sparse_sign [seq [:: k] | k <- i] (take mu.+1 s) (nth 0%N (d_true_rank D) mu) 0
           (nth 0%N (d_true_rank D) mu) (nth 0%N (d_nnz D) mu) (mod63 (N.add (N.of_nat mu) (d_seed D))) with
        | Ok row => (get row [:: 0; nth 0 (d_rank_min D) mu + c]%N)%:~R
        | Err _ => (0 : R) end).
apply: (mapM_iotaE (Q := fun mu z => lval (Sparse s inds vals) mu.+1 (drm_cols D mu) (F mu) (Some z))) => mu hmu.
rewrite (pygetE 0%N) ?(leq_trans hmu) //= (pygetE 0%N) ?(leq_trans hmu) //=.
rewrite (pygetE 0%N) ?(leq_trans hmu) //= (pygetE 0%N) ?(leq_trans hmu) //=.
have [hlh er] := h6 _ hmu; have [hrm hnz hlt] := h7 _ hmu; have := wi => /and3P[/eqP si /allP sr _].
have sh : size (head [::] (take mu.+1 inds)) = size vals.
  case: (inds) si sr => [|row l] /= si sr; first by rewrite -si in nl.
  by apply/eqP/sr; rewrite inE eqxx.
have ec k : coord (take mu.+1 inds) k = take mu.+1 (column inds k) by rewrite coordE /column map_take.
have good1 i : (i < size (head [::] (take mu.+1 inds)))%N ->
   good (row_words (take mu.+1 inds) (take mu.+1 s) (nth 0%N (d_nnz D) mu) (mod63 (mod63 (N.add (N.of_nat mu) (d_seed D)))) i)
     (nth 0%N (d_true_rank D) mu).
  apply: Prop_Hash.good_rows => // k j; rewrite sh -/(coord _ _) ec => hk hj.
  exact: hg hk _ _ hmu hj.
have [|A -> [wA sA gA]] := @signE _ _ _ (nth 0%N (d_rank_min D) mu) (nth 0%N (d_rank_max D) mu) _ _ hnz _ good1.
  by rewrite hlh.
exists (tr (of_ints R A)); first by []. rewrite sh in sA gA; split.
  by rewrite /lmat /smat /= nwf_tab /= sA /drm_cols er.
move=> p c hp hc; rewrite /= in hp *; rewrite /gv /= (@get_tr _ _ (size vals) (drm_cols D mu)) //; last first.
  by rewrite /= sA /drm_cols er.
rewrite sum_delta_l; last exact: inb_take (inb_column wi hp).
rewrite get_of_ints; rewrite /drm_cols er in hc; rewrite gA //.
rewrite /F; set col := take mu.+1 (column inds p).
have ncol : (0 < size col)%N by rewrite size_takel ?size_map; lia.
have shc : size (head [::] [seq [:: k] | k <- col]) = 1%N by case: (col) ncol.
have ec1 : coord [seq [:: k] | k <- col] 0 = col by rewrite /coord -map_comp map_id.
have good2 i : (i < size (head [::] [seq [:: k] | k <- col]))%N ->
   good (row_words [seq [:: k] | k <- col] (take mu.+1 s) (nth 0%N (d_nnz D) mu) (mod63 (mod63 (N.add (N.of_nat mu) (d_seed D)))) i)
     (nth 0%N (d_true_rank D) mu).
  apply: Prop_Hash.good_rows => // k j; rewrite shc; case: k => // _; rewrite -/(coord _ _) ec1 => hj.
  exact: hg hp _ _ hmu hj.
have [|B -> [wB sB gB]] := @signE _ _ _ 0 (nth 0%N (d_true_rank D) mu) _ _ hnz _ good2.
  by rewrite leq0n leqnn.
rewrite gB ?shc //; last by rewrite subn0; lia.
by congr (_%:~R); rewrite /row_words ec ec1.
Qed.
End Leaf2.
