(* Proofs: masked words as doubles; sparse sign rows. *)
From Coq Require Import NArith Lia.
From mathcomp Require Import all_ssreflect all_algebra.
From mathcomp.zify Require Import zify.
From Verif Require Import Py Nd Tensor Hash NdThy HashThy.
Set Implicit Arguments. Unset Strict Implicit. Unset Printing Implicit Defensive.

Definition P61 : N := 2305843009213693952.
Definition P62 : N := 4611686018427387904.

Lemma maskE h : mask h = N.modulo (N.lor h P61) P62.
Proof. by rewrite /mask -[P62]/(N.pow 2 62) -N.land_ones. Qed.

Lemma mask_bit h i : N.testbit (mask h) i =
  (N.testbit h i || N.eqb 61 i) && N.ltb i 62.
Proof.
rewrite /mask N.land_spec N.lor_spec -[SETBIT3]/(N.pow 2 61) N.pow2_bits_eqb.
rewrite -[SETBITS12]/(N.ones 62).
case: (N.ltb_spec i 62) => h62; first by rewrite N.ones_spec_low.
by rewrite N.ones_spec_high.
Qed.

Lemma mask_range h : N.le P61 (mask h) /\ N.lt (mask h) P62.
Proof.
split; last by rewrite maskE; apply: N.mod_lt.
case: (N.le_gt_cases P61 (mask h)) => // lt.
have : N.testbit (mask h) 61 = true by rewrite mask_bit orbT.
case: (N.eq_dec (mask h) 0) => [->|n0]; first by rewrite N.bits_0.
rewrite N.bits_above_log2 //; apply/N.log2_lt_pow2; [lia|exact: lt].
Qed.

Lemma bexp_mask h : N.le 512 (bexp (mask h)) /\ N.le (bexp (mask h)) 1023.
Proof.
have [lo hi] := mask_range h; rewrite /bexp.
have l : N.le 512 (N.div (mask h) M52).
  by have := N.div_le_mono _ _ M52 (fun e => ltac:(discriminate e)) lo.
have u : N.lt (N.div (mask h) M52) 1024 by apply: N.div_lt_upper_bound.
rewrite N.mod_small; last by apply: N.lt_trans u _.
by split=> //; lia.
Qed.

Lemma frac_mask h : frac (mask h) = frac h.
Proof.
rewrite /frac -[M52]/(N.pow 2 52) -(N.land_ones (mask h)) -(N.land_ones h).
apply: N.bits_inj => i; rewrite N.land_spec mask_bit N.land_spec.
case: (N.lt_ge_cases i 52) => il; last by rewrite N.ones_spec_high // !andbF.
rewrite N.ones_spec_low // !andbT.
have -> : N.ltb i 62 = true by apply/N.ltb_lt; lia.
have -> : N.eqb 61 i = false by apply/N.eqb_neq; lia.
by rewrite orbF andbT.
Qed.

Lemma frac_lt w : N.lt (frac w) M52.
Proof. exact: N.mod_lt. Qed.

Lemma sgn_mask h : sgn (mask h) = N0.
Proof.
have [_ hi] := mask_range h; rewrite /sgn N.div_small //.
exact: N.lt_trans hi _.
Qed.

(* ---- rounding ---- *)
Lemma round53_le x : N.le (N.mul M53 (round53 x)) (N.add (N.mul M53 x) x).
Proof.
rewrite /round53; case: (N.ltb_spec x M53) => hx; first by lia.
set s := N.sub _ _; set u := N.pow 2 s.
have x0 : N.lt 0 x by apply: N.lt_le_trans hx.
have l2 : N.le 53 (N.log2 x) by apply/N.log2_le_pow2.
have [lx _] := N.log2_spec x x0.
have es : N.log2 x = N.add s 52 by rewrite /s N.sub_add //; lia.
have ux : N.le (N.mul u M52) x.
  by rewrite -[M52]/(N.pow 2 52) -N.pow_add_r -es.
have u0 : N.lt 0 u by apply/N.neq_0_lt_0; apply: N.pow_nonzero.
have s1 : exists t, s = N.succ t by exists (N.pred s); rewrite N.succ_pred //; lia.
case: s1 => t st.
have uE : u = N.mul 2 (N.pow 2 t) by rewrite /u st N.pow_succ_r'.
set v := N.pow 2 t in uE.
have -> : N.div u 2 = v by rewrite uE N.mul_comm N.div_mul.
have := N.div_mod x u (N.neq_sym _ _ (N.lt_neq _ _ u0)).
set q := N.div x u; set r := N.modulo x u => xE.
have rl : N.lt r u by apply: N.mod_lt; lia.
have M53E : M53 = N.mul 2 M52 by [].
have H1 : N.le (N.mul M53 v) x by rewrite M53E; move: ux; rewrite uE; lia.
case: (N.ltb_spec v r) => hr.
  rewrite N.mul_succ_l; nia.
case: ifP => [/andP[/N.eqb_eq er _]|_]; last by nia.
rewrite N.mul_succ_l; nia.
Qed.

Lemma round53_ge x j : N.lt x (N.pow 2 105) -> N.le (N.mul j M52) x -> N.le (N.mul j M52) (round53 x).
Proof.
rewrite /round53 => hx jx; case: (N.ltb_spec x M53) => hx' //.
set s := N.sub _ _; set u := N.pow 2 s.
have x0 : N.lt 0 x by apply: N.lt_le_trans hx'.
have l2 : N.lt (N.log2 x) 105 by apply/N.log2_lt_pow2.
have us : M52 = N.mul (N.pow 2 (N.sub 52 s)) u.
  by rewrite /u -N.pow_add_r N.sub_add //; rewrite /s; lia.
have u0 : u <> N0 by apply: N.pow_nonzero.
have qge : N.le (N.mul j (N.pow 2 (N.sub 52 s))) (N.div x u).
  by apply: N.div_le_lower_bound => //; move: jx; rewrite us; lia.
have qge' : N.le (N.mul j M52) (N.mul (N.div x u) u).
  by rewrite us N.mul_assoc; apply: N.mul_le_mono_r.
by do ![case: ifP => _]; rewrite ?N.mul_succ_l; lia.
Qed.

Lemma rand_num_bounds w rank j : j < rank -> N.lt (N.of_nat rank) M52 ->
  (j = 0 \/ N.lt (N.add (frac w) (N.of_nat rank)) M52) ->
  j <= rand_num w rank j < rank.
Proof.
move=> jr rb hf; rewrite /rand_num.
set f := frac w in hf *; have fl : N.lt f M52 := frac_lt w.
set n := N.of_nat (rank - j).
have nE : N.of_nat rank = N.add n (N.of_nat j) by rewrite /n; lia.
have n1 : N.le 1 n by rewrite /n; lia.
have := @round53_le (N.mul f n); set p := round53 _ => pE.
set S := N.add p _.
have := @round53_le S; set q := round53 S => qE.
have M53E : M53 = N.mul 2 M52 by [].
have [k ek] : exists k, M52 = N.add 100 k by exists (N.sub M52 100).
have pl : N.le p (N.mul M52 n).
  have h1 : N.le (N.mul f n) (N.mul (N.pred M52) n).
    by apply: N.mul_le_mono_r; lia.
  have : N.le (N.mul M53 p) (N.mul M53 (N.mul M52 n)).
    apply: N.le_trans pE _; rewrite M53E; clear -h1 ek n1; nia.
  by move=> h; apply/(N.mul_le_mono_pos_l p (N.mul M52 n) M53).
have SE : S = N.add p (N.mul (N.of_nat j) M52) by [].
have Sl : N.le S (N.mul M52 (N.of_nat rank)).
  by rewrite nE SE; clear -pl; lia.
have qge : N.le (N.mul (N.of_nat j) M52) q.
  apply: round53_ge; last by rewrite SE; clear; lia.
  apply: N.le_lt_trans Sl _; apply: (N.lt_trans _ (N.mul M52 M52)) => //.
  exact: (proj1 (N.mul_lt_mono_pos_l M52 _ _ _)).
have qlt : N.lt q (N.mul M52 (N.of_nat rank)).
  apply/(N.mul_lt_mono_pos_l M53) => //; apply: N.le_lt_trans qE _.
  case: hf => hf.
    have S0 : S = p by rewrite SE hf; clear; lia.
    have rn : N.of_nat rank = n by rewrite nE hf; clear; lia.
    rewrite rn S0; apply/(N.mul_lt_mono_pos_l M53) => //.
    have h1 : N.le (N.mul f n) (N.mul (N.pred M52) n).
      by apply: N.mul_le_mono_r; lia.
    pose K := N.add M53 1.
    have h2 : N.le (N.mul K (N.mul M53 p)) (N.mul K (N.mul K (N.mul f n))).
      by apply: N.mul_le_mono_l; rewrite /K; move: pE; clear; lia.
    have h3 : N.le (N.mul (N.mul K K) (N.mul f n)) (N.mul (N.mul K K) (N.mul (N.pred M52) n)).
      by apply: N.mul_le_mono_l.
    have -> : N.mul M53 (N.add (N.mul M53 p) p) = N.mul K (N.mul M53 p).
      by rewrite /K; clear; move: M53 => M; nia.
    apply: N.le_lt_trans h2 _; rewrite N.mul_assoc; apply: N.le_lt_trans h3 _.
    rewrite !N.mul_assoc; apply: (proj1 (N.mul_lt_mono_pos_r n _ _ _)) => //; move: n1; clear; lia.
  have h2 : N.lt (N.mul (N.add f (N.of_nat rank)) n) (N.mul M52 n).
    by apply: (proj1 (N.mul_lt_mono_pos_r n _ _ _)); [move: n1; clear; lia | exact: hf].
  have h3 : N.le (N.of_nat rank) (N.mul (N.of_nat rank) n) by clear -n1; nia.
  have h4 : N.le (N.mul M53 p) (N.add (N.mul M53 (N.mul f n)) (N.mul M52 n)).
    apply: N.le_trans pE _; clear -fl; nia.
  have h5 : N.le (N.mul M52 (N.of_nat rank)) (N.mul M52 (N.mul (N.of_nat rank) n)).
    by apply: N.mul_le_mono_l.
  move: h2 h4 Sl SE h5; rewrite nE M53E; clear; move: (N.of_nat j) => J; nia.
apply/andP; split.
  have : N.le (N.of_nat j) (N.div q M52).
    by apply: N.div_le_lower_bound => //; rewrite N.mul_comm.
  by lia.
have : N.lt (N.div q M52) (N.of_nat rank) by apply: N.div_lt_upper_bound.
by lia.
Qed.

(* ------------------------------------------------------------------ *)
(* sparse sign rows                                                    *)
Section Rows.
Local Notation z0 := (Posz 0).

Lemma set_nth_mid (pre row post : seq int) n x : n < size row ->
  set_nth z0 (pre ++ row ++ post) (size pre + n) x = pre ++ set_nth z0 row n x ++ post.
Proof.
move=> nl; elim: pre => [|y pre IH] /=; last by rewrite IH.
elim: row n nl => [|y row IH] [|n] //= /IH ih.
by rewrite add0n in ih *; rewrite /= ih.
Qed.

Lemma nth_mid (pre row post : seq int) n : n < size row ->
  nth z0 (pre ++ row ++ post) (size pre + n) = nth z0 row n.
Proof. by move=> nl; rewrite nth_cat ltnNge leq_addr /= addKn nth_cat nl. Qed.

Lemma size_set (l : seq int) n x : n < size l -> size (set_nth z0 l n x) = size l.
Proof. by move=> nl; rewrite size_set_nth; apply/maxn_idPr. Qed.

Lemma count_set (p : pred int) (l : seq int) n x : n < size l ->
  count p (set_nth z0 l n x) + p (nth z0 l n) = count p l + p x.
Proof.
elim: l n => [|y l IH] [|n] //=; first by lia.
by rewrite ltnS => /IH ih; rewrite -addnA ih addnA.
Qed.

(* exchange of two cells of one row *)
Definition xchg (l : seq int) a b : seq int :=
  set_nth z0 (set_nth z0 l a (nth z0 l b)) b (nth z0 l a).

Lemma size_xchg l a b : a < size l -> b < size l -> size (xchg l a b) = size l.
Proof. by move=> al bl; rewrite /xchg !size_set // size_set. Qed.

Lemma count_xchg p l a b : a < size l -> b < size l -> count p (xchg l a b) = count p l.
Proof.
move=> al bl.
have h1 := count_set p (nth z0 l b) al.
have bl' : b < size (set_nth z0 l a (nth z0 l b)) by rewrite size_set.
have h2 := count_set p (nth z0 l a) bl'.
rewrite /xchg; move: h1 h2; rewrite nth_set_nth /=.
by case: eqP => [<-|_]; lia.
Qed.

Lemma swap_mid pre row post a b rank : size row = rank -> a < rank -> b < rank ->
  swap (pre ++ row ++ post) (size pre + a) (size pre + b) = Ok (pre ++ xchg row a b ++ post).
Proof.
move=> sr al bl; rewrite /swap.
rewrite !size_cat sr !ltn_add2l !ltn_addr //= /xchg.
rewrite !nth_mid ?sr // !set_nth_mid ?sr // size_set sr //.
Qed.

Definition row_fill (ws : seq N) (l : seq int) : seq int :=
  foldl (fun l jw => set_nth z0 l jw.1 (sign_of jw.2)) l (zip (iota 0 (size ws)) ws).
Definition row_perm (ws : seq N) (rank : nat) (l : seq int) : seq int :=
  foldl (fun l jw => xchg l jw.1 (rand_num jw.2 rank jw.1)) l (zip (iota 0 (size ws)) ws).
Definition row_of (ws : seq N) (rank : nat) : seq int :=
  row_perm ws rank (row_fill ws (nseq rank z0)).

Definition good (ws : seq N) (rank : nat) : Prop :=
  forall j, j < size ws -> j <= rand_num (nth N0 ws j) rank j < rank.

Lemma fill_mid_k ws k rank i pre row post : size pre = i * rank -> size row = rank ->
  k + size ws <= rank ->
  foldl (fun l jw => set_nth z0 l (i * rank + jw.1) (sign_of jw.2)) (pre ++ row ++ post)
        (zip (iota k (size ws)) ws)
   = pre ++ foldl (fun l jw => set_nth z0 l jw.1 (sign_of jw.2)) row (zip (iota k (size ws)) ws) ++ post
  /\ size (foldl (fun l jw => set_nth z0 l jw.1 (sign_of jw.2)) row (zip (iota k (size ws)) ws)) = rank.
Proof.
move=> sp; elim: ws k row => [|w ws IH] k row sr //= kl.
rewrite -sp set_nth_mid; last by rewrite sr; lia.
by rewrite sp; apply: IH; [rewrite size_set sr //; lia | lia].
Qed.

Lemma fill_mid ws rank i pre row post : size pre = i * rank -> size row = rank ->
  size ws <= rank ->
  sign_row_fill ws rank i (pre ++ row ++ post) = pre ++ row_fill ws row ++ post
  /\ size (row_fill ws row) = rank.
Proof. by move=> sp sr sw; apply: fill_mid_k. Qed.

Lemma perm_mid_k ws k rank i pre row post : size pre = i * rank -> size row = rank ->
  k + size ws <= rank ->
  (forall j, j < size ws -> k + j <= rand_num (nth N0 ws j) rank (k + j) < rank) ->
  let r := foldl (fun l jw => xchg l jw.1 (rand_num jw.2 rank jw.1)) row (zip (iota k (size ws)) ws) in
  [/\ foldM (fun l jw => swap l (i * rank + jw.1) (i * rank + rand_num jw.2 rank jw.1))
        (pre ++ row ++ post) (zip (iota k (size ws)) ws) = Ok (pre ++ r ++ post),
      size r = rank & forall p, count p r = count p row].
Proof.
move=> sp; elim: ws k row => [|w ws IH] k row sr //= kl h.
have kr : k < rank by lia.
have := h 0 isT; rewrite addn0 => /andP[_ hr].
rewrite -sp (swap_mid _ _ sr kr hr) /= sp.
case: (IH k.+1 (xchg row k (rand_num w rank k))).
- by rewrite size_xchg sr.
- by rewrite addSnnS.
- by move=> j jl; rewrite addSnnS; apply: h.
move=> -> -> hc; split=> // p; rewrite hc count_xchg ?sr //.
Qed.

Lemma size_row_fill ws rank : size ws <= rank -> size (row_fill ws (nseq rank z0)) = rank.
Proof.
move=> sw; have := @fill_mid ws rank 0 [::] (nseq rank z0) [::] erefl (size_nseq _ _) sw.
by case.
Qed.

Lemma row_of_mid ws rank i pre post : size pre = i * rank -> size ws <= rank -> good ws rank ->
  sign_row_perm ws rank i (sign_row_fill ws rank i (pre ++ nseq rank z0 ++ post))
   = Ok (pre ++ row_of ws rank ++ post) /\ size (row_of ws rank) = rank.
Proof.
move=> sp sw hg.
case: (@fill_mid ws rank i pre (nseq rank z0) post sp (size_nseq _ _) sw) => -> sf.
rewrite /sign_row_perm; case: (@perm_mid_k ws 0 rank i pre _ post sp sf sw hg) => -> -> _.
by [].
Qed.

(* the filled row: signs, then zeros *)
Lemma row_fillE ws rank : size ws <= rank ->
  row_fill ws (nseq rank z0) = [seq sign_of w | w <- ws] ++ nseq (rank - size ws) z0.
Proof.
move=> sw; rewrite /row_fill.
suff H k (pre : seq int) vs m : size pre = k -> size vs <= m ->
  foldl (fun l jw => set_nth z0 l jw.1 (sign_of jw.2)) (pre ++ nseq m z0)
    (zip (iota k (size vs)) vs) = pre ++ [seq sign_of w | w <- vs] ++ nseq (m - size vs) z0.
  by have := H 0 [::] ws rank erefl sw.
elim: vs k pre m => [|v vs IH] k pre m sp; first by rewrite subn0.
case: m => // m sm; rewrite [zip _ _]/= [foldl _ _ _]/=.
have -> : set_nth z0 (pre ++ z0 :: nseq m z0) k (sign_of v) = rcons pre (sign_of v) ++ nseq m z0.
  by rewrite -sp cat_rcons; elim: pre {sp} => //= y pre ->.
by rewrite (IH k.+1) ?size_rcons ?sp // cat_rcons.
Qed.

Lemma sign_of_pm w : sign_of w \in [:: Posz 1; Negz 0].
Proof. by rewrite /sign_of; case: N.odd. Qed.

Lemma row_of_count ws rank p : size ws <= rank -> good ws rank ->
  count p (row_of ws rank) = count p ([seq sign_of w | w <- ws] ++ nseq (rank - size ws) z0).
Proof.
move=> sw hg; rewrite -row_fillE //.
by case: (@perm_mid_k ws 0 rank 0 [::] _ [::] erefl (size_row_fill sw) sw hg) => _ _ ->.
Qed.

Lemma row_of_nnz ws rank : size ws <= rank -> good ws rank ->
  count (fun x => x != z0) (row_of ws rank) = size ws /\
  all (fun x => x \in [:: z0; Posz 1; Negz 0]) (row_of ws rank).
Proof.
move=> sw hg; split.
  rewrite row_of_count // count_cat count_map.
  rewrite (eq_count (a2 := predT)); last first.
    by move=> w /=; have := sign_of_pm w; rewrite !inE => /orP[] /eqP ->.
  rewrite count_predT; have /eqP -> : count (fun x => x != z0) (nseq (rank - size ws) z0) == 0.
    by rewrite count_nseq eqxx.
  by rewrite addn0.
have [_ sr _] := @perm_mid_k ws 0 rank 0 [::] _ [::] erefl (size_row_fill sw) sw hg.
have sr' : size (row_of ws rank) = rank by [].
have sz : size ([seq sign_of w | w <- ws] ++ nseq (rank - size ws) z0) = rank.
  by rewrite size_cat size_map size_nseq subnKC.
rewrite all_count row_of_count // sr' -{2}sz -all_count all_cat.
apply/andP; split; last by rewrite all_nseq inE eqxx orbT.
apply/allP => _ /mapP[w _ ->].
by have := sign_of_pm w; rewrite !inE => ->; rewrite orbT.
Qed.

Lemma flat_rows inds shape rank nnz seed : nnz <= rank ->
  (forall i, i < size (head [::] inds) -> good (row_words inds shape nnz seed i) rank) ->
  sparse_sign_flat inds shape rank nnz seed =
    Ok (flatten [seq row_of (row_words inds shape nnz seed i) rank | i <- iota 0 (size (head [::] inds))]).
Proof.
move=> nr hg; rewrite /sparse_sign_flat.
set n := size _ in hg *.
suff H m k pre : k + m = n -> size pre = k * rank ->
  foldM (fun l i => let ws := row_words inds shape nnz seed i in
      sign_row_perm ws rank i (sign_row_fill ws rank i l))
    (pre ++ nseq (m * rank) z0) (iota k m) =
  Ok (pre ++ flatten [seq row_of (row_words inds shape nnz seed i) rank | i <- iota k m]).
  by have := H n 0 [::] erefl erefl.
elim: m k pre => [|m IH] k pre kn sp; first by rewrite /= !cats0.
rewrite mulSn nseqD [iota _ _]/= [foldM _ _ _]/=.
have sw : size (row_words inds shape nnz seed k) <= rank by rewrite size_map size_iota.
have kl : k < n by lia.
case: (row_of_mid (nseq (m * rank) z0) sp sw (hg k kl)) => -> sr.
rewrite /= catA IH ?size_cat ?sp ?sr //; last by rewrite mulSn addnC.
- by rewrite /= catA.
- by lia.
Qed.

Lemma flatten_nth_eq rank (rows : seq (seq int)) i j :
  (forall k, k < size rows -> size (nth [::] rows k) = rank) -> i < size rows -> j < rank ->
  nth z0 (flatten rows) (i * rank + j) = nth z0 (nth [::] rows i) j.
Proof.
elim: rows i => [|r rows IH] i // hs.
have s0 := hs 0 isT; case: i => [|i] il jl /=.
  by rewrite nth_cat s0 jl.
rewrite nth_cat s0 mulSn -addnA ltnNge leq_addr /= addKn IH // => k; exact: (hs k.+1).
Qed.

Lemma signE inds shape rank a b nnz seed : nnz <= rank -> a <= b <= rank ->
  (forall i, i < size (head [::] inds) -> good (row_words inds shape nnz (mod63 seed) i) rank) ->
  exists2 A, inds_to_sparse_sign inds shape rank a b nnz seed = Ok A &
    [/\ nwf A, nshape A = [:: size (head [::] inds); b - a] &
      forall i j, i < size (head [::] inds) -> j < b - a ->
        get A [:: i; j] = nth z0 (row_of (row_words inds shape nnz (mod63 seed) i) rank) (a + j)].
Proof.
move=> nr /andP[ab br] hg; rewrite /inds_to_sparse_sign flat_rows //=.
set n := size (head _ _) in hg *; set rows := map _ _.
have rsz k : k < size rows -> size (nth [::] rows k) = rank.
  rewrite size_map size_iota => kl.
  rewrite (nth_map 0) ?size_iota // nth_iota //.
  have sw : size (row_words inds shape nnz (mod63 seed) k) <= rank by rewrite size_map size_iota.
  by case: (@row_of_mid _ rank 0 [::] [::] erefl sw (hg k kl)).
have sz : size (flatten rows) = n * rank.
  have -> : n = size rows by rewrite size_map size_iota.
  elim: rows rsz => //= r rows IH rsz; rewrite size_cat mulSn IH => [|k]; last exact: (rsz k.+1).
  by rewrite (rsz 0).
rewrite /reshape /= muln1 muln1 sz eqxx /=.
eexists; first by [].
rewrite /slice_ax /dim /= (minn_idPl br) (minn_idPl ab); split => //.
  exact: nwf_tab.
move=> i j il jl; rewrite get_tab /=; last by rewrite il jl.
rewrite /get /= !muln1 !addn0 (@flatten_nth_eq rank) //.
- by rewrite (nth_map 0) ?size_iota // nth_iota.
- by rewrite size_map size_iota.
- by lia.
Qed.
End Rows.
