(* The left contractions computed by the sketch_* methods of the DRM classes. *)
From Coq Require Import String Ascii NArith.
From mathcomp Require Import all_ssreflect all_algebra.
From mathcomp Require Import zify.
From Verif Require Import Py Nd NdThy Ein Utils Tensor Hash Sketch Spec ChainThy TensorThy TensorThy2 GatherThy MatThy SkSpec SkThy1 SkThy2 SkThy3 SkThy4.
From Verif Require RoundThy.
Set Implicit Arguments. Unset Strict Implicit. Unset Printing Implicit Defensive.
Import GRing.Theory.
Local Open Scope ring_scope.
Definition pygetE := RoundThy.pygetE.

Section Leaf.
Variable R : comRingType.
Notation arr := (nd R).
Notation tensor := (tensor R).
Notation drm := (drm R).
Notation C0 := (C0 R).
Implicit Types (X : tensor) (cs ds : seq arr) (n mu : nat) (D : drm).

Lemma gen_loopE (body : nat -> option arr -> res (arr * arr)) n (P Q : nat -> arr -> Prop) :
  (forall mu st, (mu < n)%N -> (if mu is mu'.+1 then exists2 y, st = Some y & P mu' y else st = None) ->
     exists y z, [/\ body mu st = Ok (y, z), P mu y & Q mu z]) ->
  exists2 l, gen_loop body n = Ok l & size l = n /\ forall mu, (mu < n)%N -> Q mu (nth C0 l mu).
Proof.
move=> H; rewrite /gen_loop.
suff [st [l [-> hl hs hQ]]] : exists st l, [/\ foldM (fun (st : option arr * seq arr) mu =>
                   do y <- body mu st.1; Ok (Some y.1, rcons st.2 y.2)) (None, [::]) (iota 0 n) = Ok (st, l),
     size l = n, if n is n'.+1 then exists2 y, st = Some y & P n' y else st = None &
     forall mu, (mu < n)%N -> Q mu (nth C0 l mu)] by exists l.
elim: n H => [|n IH] H; first by exists None, [::].
have [|st [l [E hl hs hQ]]] := IH; first by move=> mu st hm; apply: H; rewrite ltnS ltnW.
have [y [z [Eb hP hQ']]] := H n st (ltnSn n) hs.
exists (Some y), (rcons l z); rewrite iotaSr foldM_rcons E /= Eb /=; split=> //.
- by rewrite size_rcons hl.
- by exists y.
- move=> mu; rewrite ltnS leq_eqVlt nth_rcons hl => /orP[/eqP->|hm]; first by rewrite ltnn eqxx.
  by rewrite hm; apply: hQ.
Qed.

(* ---- windows ---- *)
Lemma slice1E (A : arr) m r lo hi : nshape A = [:: m; r] -> (lo <= hi <= r)%N ->
  slice_ax 1 lo hi A = tab2 m (hi - lo) (fun p c => get A [:: p; (lo + c)%N]).
Proof.
move=> e /andP[h1 h2]; rewrite /slice_ax /dim e /=.
have -> : minn hi r = hi by lia. have -> : minn lo hi = lo by lia.
by apply: tab_ext => x /inb2P[p [c [-> _ _]]].
Qed.
Lemma slice0E (A : arr) m r lo hi : nshape A = [:: r; m] -> (lo <= hi <= r)%N ->
  slice_ax 0 lo hi A = tab2 (hi - lo) m (fun c p => get A [:: (lo + c)%N; p]).
Proof.
move=> e /andP[h1 h2]; rewrite /slice_ax /dim e /=.
have -> : minn hi r = hi by lia. have -> : minn lo hi = lo by lia.
by apply: tab_ext => x /inb2P[p [c [-> _ _]]].
Qed.

(* the window attributes of a DRM, for its first n matrices *)
Lemma windowE D n mu A m r : win_ok D n -> (mu < n)%N -> nshape A = [:: m; r] ->
  (nth 0 (d_rank_max D) mu <= r)%N ->
  window D mu A = Ok (tab2 m (drm_cols D mu) (fun p c => get A [:: p; (nth 0%N (d_rank_min D) mu + c)%N])).
Proof.
move=> [h1 h2 h3 h4] hm e hr; have [hle er] := h4 mu hm.
rewrite /window (pygetE 0%N) ?(leq_trans hm) //= (pygetE 0%N) ?(leq_trans hm) //=.
by rewrite (slice1E e) ?hle // /drm_cols er.
Qed.

(* ---- the TensorTrainDRM ---- *)
(* the first n cores of the DRM form a chain with the given mode sizes *)
(* the pieces of a chain of cores *)
Lemma links_take cs n r mu : links 1 (take n cs) r -> (n <= size cs)%N -> (mu < n)%N ->
  let C := nth C0 cs mu in
  [/\ links 1 (take mu cs) (dim C 0), nwf C, nshape C = [:: dim C 0; dim C 1; dim C 2] &
      take mu.+1 cs = rcons (take mu cs) C].
Proof.
move=> L ns hm C; have hs : (mu < size (take n cs))%N by rewrite size_takel.
have [r' [L1 _ er]] := links_split L (ltnW hs); have [wC sC e2 e0] := links_nth L hs.
rewrite nth_take // -/C in wC sC e2 e0.
have L1' : links 1 (take mu cs) r' by move: L1; rewrite take_take // ltnW.
have ers : r' = dim C 0 by rewrite e0 er; apply: set_nth_default; rewrite size_map.
by split=> //; [rewrite -ers | rewrite (take_nth C0) // (leq_trans hm)].
Qed.
Lemma links_take' cs n r mu : links 1 (take n cs) r -> (n <= size cs)%N -> (mu < n)%N ->
  links 1 (take mu.+1 cs) (dim (nth C0 cs mu) 2).
Proof.
move=> L ns hm; have [L1 w s ->] := links_take L ns hm.
exact: links_rconsI L1 w s.
Qed.
Lemma links_inj a cs b b' : links a cs b -> links a cs b' -> b = b'.
Proof.
elim: cs a => [|D l IHl] a /=; first by move=> /eqP <- /eqP <-.
by case/and3P=> _ _ H1 /and3P[_ _ H2]; apply: IHl H1 H2.
Qed.
(* the next core of a chain starts with the rank of the previous one *)
Lemma links_next cs n r mu : links 1 (take n cs) r -> (n <= size cs)%N -> (mu.+1 < n)%N ->
  dim (nth C0 cs mu.+1) 0 = dim (nth C0 cs mu) 2.
Proof.
move=> L ns hm; have L1 := links_take' L ns (ltnW hm); have [L2 _ _ _] := links_take L ns hm.
exact: links_inj L2 L1.
Qed.
Lemma links_first cs n r : links 1 (take n cs) r -> (0 < n)%N -> (n <= size cs)%N ->
  dim (nth C0 cs 0) 0 = 1%N.
Proof. by case: cs n => [|C cs] [|n] //= /and3P[_ /eqP e _] _ _; rewrite /dim e. Qed.

Lemma tsh_take cs n mu : (n <= size cs)%N -> (mu < n)%N ->
  take mu.+1 (tsh (take n cs)) = rcons (take mu (tsh (take n cs))) (dim (nth C0 cs mu) 1).
Proof.
move=> ns hm; rewrite (take_nth 0%N) ?size_map ?size_takel //; congr rcons.
by rewrite (nth_map C0) ?size_takel // nth_take.
Qed.

Lemma chain_step cs n r mu i k c : links 1 (take n cs) r -> (n <= size cs)%N -> (mu < n)%N ->
  size i = mu -> (c < dim (nth C0 cs mu) 2)%N ->
  chain (take mu.+1 cs) (rcons i k) 0 c =
  \sum_(0 <= l < dim (nth C0 cs mu) 0) chain (take mu cs) i 0 l * get (nth C0 cs mu) [:: l; k; c].
Proof.
move=> L ns hm hi hc; have [L1 _ _ ->] := links_take L ns hm.
by rewrite (chain_rcons _ L1) // size_takel // (leq_trans (ltnW hm)).
Qed.

Lemma nth_dims D dims n mu : ttd_ok D dims n -> (n <= size dims)%N -> (mu < n)%N ->
  nth 0%N dims mu = dim (nth C0 (d_cores D) mu) 1.
Proof.
move=> [ns _ et _ _] nd hm; rewrite -(@nth_take n) // -et (nth_map C0) ?size_takel // nth_take //.
Qed.

(* TT format *)
Lemma ttdrm_ttE D cs n : wf_tt cs -> (n < size cs)%N -> ttd_ok D (tsh cs) n ->
  exists2 l, ttdrm_tt D cs n = Ok l & size l = n /\
  forall mu, (mu < n)%N -> lval (TT cs) mu.+1 (drm_cols D mu)
     (fun i c => chain (take mu.+1 (d_cores D)) i 0 (nth 0 (d_rank_min D) mu + c)%N) (Some (nth C0 l mu)).
Proof.
move=> w nl H; have [ns [r L] et hw hr] := H.
have Lc : links 1 (take (size cs) cs) 1 by rewrite take_size; case/andP: w.
set ds := d_cores D in ns L et hr *.
apply: (gen_loopE (P := fun mu lr => nshape lr = [:: dim (nth C0 cs mu) 2; dim (nth C0 ds mu) 2] /\
   forall p c, (p < dim (nth C0 cs mu) 2)%N -> (c < dim (nth C0 ds mu) 2)%N ->
     get lr [:: p; c] = sum_idx (take mu.+1 (tsh cs)) (fun i =>
        chain (take mu.+1 cs) i 0 p * chain (take mu.+1 ds) i 0 c))
  (Q := fun mu z => lval (TT cs) mu.+1 (drm_cols D mu)
     (fun i c => chain (take mu.+1 ds) i 0 (nth 0 (d_rank_min D) mu + c)%N) (Some z))).
move=> mu st hm hst; have hmc : (mu < size cs)%N by lia.
have nd : nth 0%N (tsh cs) mu = dim (nth C0 ds mu) 1 by apply: nth_dims H _ hm; rewrite size_map ltnW.
have nd' : dim (nth C0 cs mu) 1 = dim (nth C0 ds mu) 1 by rewrite -nd (nth_map C0).
have [L1 wC sC tC] := links_take Lc (leqnn _) hmc.
have [L2 wE sE tE] := links_take L ns hm.
rewrite (pygetE C0) //= (pygetE C0) ?(leq_trans hm) //= -/ds.
have tsh1 : take mu.+1 (tsh cs) = rcons (take mu (tsh cs)) (dim (nth C0 ds mu) 1).
  by rewrite (take_nth 0%N) ?size_map // nd.
suff [lr [E slr hlr]] : exists lr, [/\ match st with
     | Some lr0 => einsum "ij,ikl,jkm->lm" [:: lr0; nth C0 cs mu; nth C0 ds mu]
     | None => einsum "ijk,ijl->kl" [:: nth C0 cs mu; nth C0 ds mu] end = Ok lr,
     nshape lr = [:: dim (nth C0 cs mu) 2; dim (nth C0 ds mu) 2] &
     forall p c, (p < dim (nth C0 cs mu) 2)%N -> (c < dim (nth C0 ds mu) 2)%N ->
     get lr [:: p; c] = sum_idx (take mu.+1 (tsh cs)) (fun i =>
        chain (take mu.+1 cs) i 0 p * chain (take mu.+1 ds) i 0 c)].
  rewrite E /= (windowE hw hm slr) ?hr //=; do 2 eexists; split=> //.
  have [_ _ _ hwin] := hw; have [hle er] := hwin _ hm; have hrm := hr _ hm; split.
    rewrite /lmat /smat /= nwf_tab2 /=.
    have [_ _ e2 _] := links_nth (proj2 (andP w)) hmc.
    by rewrite e2 eqxx.
  move=> p c hp hc; have [_ _ e2 _] := links_nth (proj2 (andP w)) hmc.
  have hp' : (p < dim (nth C0 cs mu) 2)%N by rewrite e2.
  have hc' : (nth 0 (d_rank_min D) mu + c < dim (nth C0 ds mu) 2)%N.
    by rewrite /drm_cols er in hc; lia.
  by rewrite /= /gv /= get_tab2 // hlr.
case: mu st hm hst hmc nd nd' L1 wC sC tC L2 wE sE tE tsh1 => [|mu] st hm hst hmc nd nd' L1 wC sC tC L2 wE sE tE tsh1.
  rewrite hst; have e0 : dim (nth C0 cs 0) 0 = 1%N by apply: links_first Lc _ _.
  have e0' : dim (nth C0 ds 0) 0 = 1%N by apply: links_first L _ _.
  rewrite nd' e0 in sC; rewrite e0' in sE; rewrite (es_ijk_ijl sC sE).
  eexists; split=> // p c hp hc; rewrite get_tab2 // big_nat1 tsh1 sum_idx_rcons take0 /=.
  apply: eq_big_nat => k hk; rewrite tC tE !take0 !chain1 //.
case: hst => lr -> [slr hlr].
have e1 := links_next Lc (leqnn _) hmc; have e2 := links_next L ns hm.
rewrite nd' e1 in sC; rewrite e2 in sE.
rewrite (es_ij_ikl_jkm slr sC sE); eexists; split=> // p c hp hc.
rewrite get_tab2 // tsh1 sum_idx_rcons.
transitivity (\sum_(0 <= xi < dim (nth C0 cs mu) 2) \sum_(0 <= xj < dim (nth C0 ds mu) 2)
   \sum_(0 <= xk < dim (nth C0 ds mu.+1) 1) sum_idx (take mu.+1 (tsh cs)) (fun i =>
     chain (take mu.+1 cs) i 0 xi * chain (take mu.+1 ds) i 0 xj *
      (get (nth C0 cs mu.+1) [:: xi; xk; p] * get (nth C0 ds mu.+1) [:: xj; xk; c]))).
  apply: eq_big_nat => xi hxi; apply: eq_big_nat => xj hxj; apply: eq_bigr => xk _.
  by rewrite hlr // sum_idxZr.
under eq_bigr => xi _ do under eq_bigr => xj _ do rewrite -sum_idx_big.
under eq_bigr => xi _ do rewrite -sum_idx_big.
rewrite -sum_idx_big; apply: eq_sum_idx => i hi.
have si : size i = mu.+1 by rewrite (inb_size hi) size_takel // size_map ltnW.
under eq_bigr => xi _ do rewrite exchange_big.
rewrite exchange_big; apply: eq_bigr => k _ /=.
rewrite (chain_step k Lc) // (chain_step k L) // e1 e2.
rewrite big_distrl; apply: eq_bigr => xi _ /=; rewrite big_distrr; apply: eq_bigr => xj _ /=.
by rewrite mulrACA.
Qed.

(* sparse format *)
Lemma take3E (A : arr) a b c (js : seq nat) : nshape A = [:: a; b; c] -> all (fun j : nat => (j < b)%N) js ->
  take_ax 1 js A = Ok (tab3 a (size js) c (fun x k z => get A [:: x; nth 0%N js k; z])).
Proof.
move=> e hj; rewrite /take_ax /dim e /= hj; congr Ok.
Qed.
Lemma column_take (inds : seq (seq nat)) k mu : (mu < size inds)%N ->
  take mu.+1 (column inds k) = rcons (take mu (column inds k)) (nth 0%N (nth [::] inds mu) k).
Proof. by move=> hm; rewrite (take_nth 0%N) ?size_map // (nth_map [::]). Qed.
Lemma resh_1 m n (f : nat -> nat -> nat -> R) :
  reshape (tab3 1 m n f) [:: m; n] = Ok (tab2 m n (f 0%N)).
Proof.
apply: reshape_tab' => [||x /inb2P[a [b [-> ha hb]]]]; [exact: nwf_tab | by rewrite /= ?mul1n ?muln1 |].
exists [:: 0%N; a; b]; last by rewrite get_tab3.
by rewrite /= ?muln1 ?mul0n ?addn0.
Qed.
Lemma inb_column s inds N k : wf_inds s inds N -> (k < N)%N -> inb s (column inds k).
Proof. by case/and3P=> _ _ /allP H hk; apply: H; rewrite mem_iota. Qed.
Lemma inb_take s i n : inb s i -> inb (take n s) (take n i).
Proof. by elim: s i n => [|x s IH] [|y i] [|n] //= /andP[-> /IH->]. Qed.
Lemma inb_drop s i n : inb s i -> inb (drop n s) (drop n i).
Proof. by elim: s i n => [|x s IH] [|y i] [|n] //= /andP[h hi]; apply: IH. Qed.

Lemma sum_delta_l s j (f : seq nat -> R) : inb s j -> sum_idx s (fun i => (j == i)%:R * f i) = f j.
Proof. by move=> h; rewrite -(sum_idx_delta f h); apply: eq_sum_idx => i _; rewrite eq_sym. Qed.

Lemma ttdrm_sparseE D nr s inds (vals : seq R) n : wf_gen nr (Sparse s inds vals) -> (n < size s)%N ->
  ttd_ok D s n ->
  exists2 l, ttdrm_sparse D inds n = Ok l & size l = n /\
  forall mu, (mu < n)%N -> lval (Sparse s inds vals) mu.+1 (drm_cols D mu)
     (fun i c => chain (take mu.+1 (d_cores D)) i 0 (nth 0 (d_rank_min D) mu + c)%N) (Some (nth C0 l mu)).
Proof.
move=> w nl H; have [ns [r L] et hw hr] := H.
set ds := d_cores D in ns L et hr *.
case/andP: w => wi _; have := wi => /and3P[/eqP si /allP sr _].
apply: (gen_loopE (P := fun mu lr => nshape lr = [:: size vals; dim (nth C0 ds mu) 2] /\
   forall k c, (k < size vals)%N -> (c < dim (nth C0 ds mu) 2)%N ->
     get lr [:: k; c] = chain (take mu.+1 ds) (take mu.+1 (column inds k)) 0 c)
  (Q := fun mu z => lval (Sparse s inds vals) mu.+1 (drm_cols D mu)
     (fun i c => chain (take mu.+1 ds) i 0 (nth 0 (d_rank_min D) mu + c)%N) (Some z))).
move=> mu st hm hst; have hms : (mu < size inds)%N by lia.
have nd : nth 0%N s mu = dim (nth C0 ds mu) 1 by apply: nth_dims H _ hm; rewrite ltnW.
have [L2 wE sE tE] := links_take L ns hm.
rewrite (pygetE C0) ?(leq_trans hm) //= (pygetE [::]) //= -/ds.
set row := nth [::] inds mu; have srow : size row = size vals by apply/eqP/sr/mem_nth.
have hrow : all (fun j : nat => (j < dim (nth C0 ds mu) 1)%N) row.
  apply/(all_nthP 0%N) => k hk; rewrite srow in hk; have := inb_nth (inb_column wi hk).
  by move=> /(_ mu); rewrite -si hms (nth_map [::]) // nd => /(_ isT).
rewrite (take3E sE hrow) /= srow.
suff [lr [E slr hlr]] : exists lr, [/\ match st with
     | Some lr0 => einsum "ijk,ji->jk" [:: tab3 (dim (nth C0 ds mu) 0) (size vals) (dim (nth C0 ds mu) 2)
           (fun x k z => get (nth C0 ds mu) [:: x; nth 0%N row k; z]); lr0]
     | None => reshape (tab3 (dim (nth C0 ds mu) 0) (size vals) (dim (nth C0 ds mu) 2)
           (fun x k z => get (nth C0 ds mu) [:: x; nth 0%N row k; z])) [:: size vals; dim (nth C0 ds mu) 2] end = Ok lr,
     nshape lr = [:: size vals; dim (nth C0 ds mu) 2] &
     forall k c, (k < size vals)%N -> (c < dim (nth C0 ds mu) 2)%N ->
     get lr [:: k; c] = chain (take mu.+1 ds) (take mu.+1 (column inds k)) 0 c].
  rewrite E /= (windowE hw hm slr) ?hr //=; do 2 eexists; split=> //.
  have [_ _ _ hwin] := hw; have [hle er] := hwin _ hm; have hrm := hr _ hm; split.
    by rewrite /lmat /smat /= nwf_tab /=.
  move=> p c hp hc; rewrite /= in hp.
  have hc' : (nth 0 (d_rank_min D) mu + c < dim (nth C0 ds mu) 2)%N.
    by rewrite /drm_cols er in hc; lia.
  rewrite /= /gv /= (@get_tr _ _ (size vals) (drm_cols D mu)) // get_tab2 // hlr // sum_delta_l //.
  exact: inb_take (inb_column wi hp).
have erow : row = nth [::] inds mu by [].
case: mu st hm hst hms nd L2 wE sE tE row srow hrow erow => [|mu] st hm hst hms nd L2 wE sE tE row srow hrow erow.
  rewrite hst; have e0' : dim (nth C0 ds 0) 0 = 1%N by apply: links_first L _ _.
  rewrite e0' resh_1; eexists; split=> // k c hk hc; rewrite get_tab2 // tE take0.
  by rewrite column_take // take0 chain1 // erow.
case: hst => lr -> [slr hlr]; have e2 := links_next L ns hm.
rewrite e2 (@es_ijk_ji _ _ _ (dim (nth C0 ds mu) 2) (size vals) (dim (nth C0 ds mu.+1) 2)) //.
eexists; split=> // k c hk hc; rewrite get_tab2 // column_take // (chain_step _ L) //; last first.
  by rewrite size_takel // size_map ltnW.
by rewrite e2 erow; apply: eq_big_nat => l hl; rewrite get_tab3 // hlr // mulrC.
Qed.

(* CP format *)
Lemma cprod_rcons cs (C : arr) (i : seq nat) k p : size i = size cs ->
  cprod (rcons cs C) (rcons i k) p = cprod cs i p * get C [:: k; p].
Proof. by move=> h; rewrite /cprod zip_rcons // -cats1 big_cat big_seq1. Qed.

Lemma ttdrm_cpE D cs n : wf_cp cs -> (n < size cs)%N -> ttd_ok D [seq dim C 0 | C <- cs] n ->
  exists2 l, ttdrm_cp D cs n = Ok l & size l = n /\
  forall mu, (mu < n)%N -> lval (CP cs) mu.+1 (drm_cols D mu)
     (fun i c => chain (take mu.+1 (d_cores D)) i 0 (nth 0 (d_rank_min D) mu + c)%N) (Some (nth C0 l mu)).
Proof.
move=> w nl H; have [ns [r L] et hw hr] := H.
set ds := d_cores D in ns L et hr *; set rk := dim (head C0 cs) 1.
set sh := [seq dim C 0 | C <- cs] in H et *.
apply: (gen_loopE (P := fun mu lr => nshape lr = [:: rk; dim (nth C0 ds mu) 2] /\
   forall p c, (p < rk)%N -> (c < dim (nth C0 ds mu) 2)%N ->
     get lr [:: p; c] = sum_idx (take mu.+1 sh) (fun i =>
        cprod (take mu.+1 cs) i p * chain (take mu.+1 ds) i 0 c))
  (Q := fun mu z => lval (CP cs) mu.+1 (drm_cols D mu)
     (fun i c => chain (take mu.+1 ds) i 0 (nth 0 (d_rank_min D) mu + c)%N) (Some z))).
move=> mu st hm hst; have hmc : (mu < size cs)%N by lia.
have nd : nth 0%N sh mu = dim (nth C0 ds mu) 1 by apply: nth_dims H _ hm; rewrite size_map ltnW.
have nd' : dim (nth C0 cs mu) 0 = dim (nth C0 ds mu) 1 by rewrite -nd (nth_map C0).
have sC : nshape (nth C0 cs mu) = [:: dim (nth C0 ds mu) 1; rk].
  case/andP: w => _ /all_nthP => /(_ C0 mu hmc) /andP[_ /eqP ->]; by rewrite nd'.
have tC : take mu.+1 cs = rcons (take mu cs) (nth C0 cs mu) by rewrite (take_nth C0).
have [L2 wE sE tE] := links_take L ns hm.
rewrite (pygetE C0) //= (pygetE C0) ?(leq_trans hm) //= -/ds.
have tsh1 : take mu.+1 sh = rcons (take mu sh) (dim (nth C0 ds mu) 1).
  by rewrite (take_nth 0%N) ?size_map // nd.
suff [lr [E slr hlr]] : exists lr, [/\ match st with
     | Some lr0 => einsum "ij,ki,jkl->il" [:: lr0; nth C0 cs mu; nth C0 ds mu]
     | None => einsum "ij,lik->jk" [:: nth C0 cs mu; nth C0 ds mu] end = Ok lr,
     nshape lr = [:: rk; dim (nth C0 ds mu) 2] &
     forall p c, (p < rk)%N -> (c < dim (nth C0 ds mu) 2)%N ->
     get lr [:: p; c] = sum_idx (take mu.+1 sh) (fun i =>
        cprod (take mu.+1 cs) i p * chain (take mu.+1 ds) i 0 c)].
  rewrite E /= (windowE hw hm slr) ?hr //=; do 2 eexists; split=> //.
  have [_ _ _ hwin] := hw; have [hle er] := hwin _ hm; have hrm := hr _ hm; split.
    by rewrite /lmat /smat /= nwf_tab2 /=.
  move=> p c hp hc.
  have hc' : (nth 0 (d_rank_min D) mu + c < dim (nth C0 ds mu) 2)%N.
    by rewrite /drm_cols er in hc; lia.
  by rewrite /= /gv /= get_tab2 // hlr.
case: mu st hm hst hmc nd nd' sC tC L2 wE sE tE tsh1 => [|mu] st hm hst hmc nd nd' sC tC L2 wE sE tE tsh1.
  rewrite hst; have e0' : dim (nth C0 ds 0) 0 = 1%N by apply: links_first L _ _.
  rewrite e0' in sE; rewrite (es_ij_lik sC sE).
  eexists; split=> // p c hp hc; rewrite get_tab2 // tsh1 sum_idx_rcons take0 /=.
  apply: eq_big_nat => k hk; rewrite big_nat1 tC tE !take0 !chain1 //.
  by rewrite /cprod /= big_seq1.
case: hst => lr -> [slr hlr]; have e2 := links_next L ns hm.
rewrite e2 in sE.
rewrite (es_ij_ki_jkl slr sC sE); eexists; split=> // p c hp hc.
rewrite get_tab2 // tsh1 sum_idx_rcons.
transitivity (\sum_(0 <= xj < dim (nth C0 ds mu) 2)
   \sum_(0 <= xk < dim (nth C0 ds mu.+1) 1) sum_idx (take mu.+1 sh) (fun i =>
     cprod (take mu.+1 cs) i p * chain (take mu.+1 ds) i 0 xj *
      (get (nth C0 cs mu.+1) [:: xk; p] * get (nth C0 ds mu.+1) [:: xj; xk; c]))).
  apply: eq_big_nat => xj hxj; apply: eq_bigr => xk _.
  by rewrite hlr // sum_idxZr.
under eq_bigr => xj _ do rewrite -sum_idx_big.
rewrite -sum_idx_big; apply: eq_sum_idx => i hi.
have si : size i = mu.+1 by rewrite (inb_size hi) size_takel // size_map ltnW.
rewrite exchange_big; apply: eq_bigr => k _ /=.
rewrite tC cprod_rcons ?size_takel // ?(ltnW hmc) // (chain_step k L) // e2.
rewrite big_distrr; apply: eq_bigr => xj _ /=.
by rewrite mulrACA.
Qed.
End Leaf.
