(* Singular values are unique (up to trailing zeros); the loop of TensorTrain.svdvals *)
From Coq Require Import String Ascii NArith.
From mathcomp Require Import all_ssreflect all_algebra.
From mathcomp Require Import zify.
From Verif Require Import Py Nd NdThy Ein Utils Tensor Spec LinSpec ChainThy MatThy TensorThy TensorThy2.
From Verif Require Import TensorThy4 GatherThy DotThy TrimThy TensorNum SweepThy NormThy RoundSpec RoundThy EYThy RoundOpt.
From Verif Require Import Sketch SkSpec RecSpec SvSpec.
Set Implicit Arguments. Unset Strict Implicit. Unset Printing Implicit Defensive.
Import GRing.Theory Num.Theory Order.TTheory.
Local Open Scope ring_scope.

Section Uniq.
Variable R : rcfType.

Lemma fro_udv m n k (U : 'M[R]_(m, k)) (V : 'M[R]_(k, n)) (s : nat -> R) :
  U^T *m U = 1%:M -> V *m V^T = 1%:M -> fro (U *m diag_mx (\row_t s t) *m V) = \sum_(0 <= t < k) s t ^+ 2.
Proof.
move=> oU oV; set D := diag_mx _.
have dD : D^T = D by rewrite /D tr_diag_mx.
have -> : fro (U *m D *m V) = \tr (D *m D).
  rewrite /fro !trmx_mul dD.
  have -> : V^T *m (D *m U^T) *m (U *m D *m V) = V^T *m (D *m D *m V) by rewrite -!mulmxA (mulmxA U^T) oU mul1mx.
  by rewrite mxtrace_mulC -(mulmxA _ V) oV mulmx1.
rewrite big_mkord /mxtrace; apply: eq_bigr => t _.
by rewrite /D mul_diag_mx !mxE eqxx mulr1n expr2.
Qed.

Lemma sv_tail_le m n (M : 'M[R]_(m, n)) (s s' : seq R) r : singular_values M s -> singular_values M s' ->
  (r <= size s')%N -> \sum_(r <= t < size s') nth 0 s' t ^+ 2 <= \sum_(r <= t < maxn r (size s)) nth 0 s t ^+ 2.
Proof.
move=> [s0 sl [U [V [oU oV eM]]]] [s0' sl' [U' [V' [oU' oV' eM']]]] hr; set k := size s in U V oU oV eM *.
pose F : 'M[R]_(m, r) := \matrix_(i, c) if (insub (nat_of_ord c) : option 'I_k) is Some c' then U i c' * nth 0 s c else 0.
pose G : 'M[R]_(r, n) := \matrix_(c, j) if (insub (nat_of_ord c) : option 'I_k) is Some c' then V c' j else 0.
apply: le_trans (@ey_mx R m n _ r M U' V' (fun t => nth 0 s' t) F G oU' oV' eM' s0' sl' hr) _.
have -> : M - F *m G = U *m diag_mx (\row_t ((r <= t)%:R * nth 0 s t)) *m V.
  apply/eqP; rewrite subr_eq; apply/eqP; rewrite eM; apply/matrixP => i j.
  rewrite mxE [RHS]mxE [X in _ = X + _]mxE [X in _ = _ + X]mxE.
  have -> : \sum_c F i c * G c j = \sum_(t < k) (t < r)%:R * (U i t * nth 0 s t * V t j).
    pose h c := if (insub c : option 'I_k) is Some c' then U i c' * nth 0 s c * V c' j else 0.
    have hE (t : 'I_k) : U i t * nth 0 s t * V t j = h t by rewrite /h valK.
    have h0 c : (k <= c)%N -> h c = 0 by move=> hc; rewrite /h insubN // -leqNgt.
    transitivity (\sum_(0 <= c < r) h c).
      rewrite big_mkord; apply: eq_bigr => c _; rewrite !mxE /h; case: insub => [c'|]; by rewrite ?mul0r.
    under [RHS]eq_bigr => t _ do rewrite hE.
    rewrite -(big_mkord xpredT (fun t => (t < r)%:R * h t)).
    have tr a b : \sum_(0 <= c < maxn a b) (c < a)%:R * h c = \sum_(0 <= c < a) h c.
      rewrite (big_cat_nat _ _ _ (leq0n a) (leq_maxl a b)) /= [X in _ + X]big1_seq ?addr0.
        by apply: eq_big_nat => c /andP[_ ->]; rewrite mul1r.
      by move=> c; rewrite mem_index_iota => /andP[_ /andP[hc _]]; rewrite ltnNge hc mul0r.
    rewrite -(tr r k) maxnC (big_cat_nat _ _ _ (leq0n k) (leq_maxl k r)) /= [X in _ + X]big1_seq ?addr0 // => c.
    by rewrite mem_index_iota => /andP[_ /andP[hc _]]; rewrite h0 // mulr0.
  rewrite -big_split /=; apply: eq_bigr => t _; rewrite !mul_mx_diag !mxE.
  case: (leqP r t) => h; by rewrite ?mul0r ?mulr0 ?mul0r ?mul1r ?addr0 ?add0r.
rewrite (fro_udv (fun t => (r <= t)%:R * nth 0 s t) oU oV) le_eqVlt; apply/orP; left; apply/eqP.
case: (leqP r k) => h.
  rewrite (big_cat_nat _ _ _ (leq0n r) h) /= big1_seq ?add0r.
    apply: eq_big_nat => t /andP[-> _]; by rewrite mul1r.
  by move=> t; rewrite mem_index_iota => /andP[_ /andP[_ ht]]; rewrite leqNgt ht mul0r expr0n.
rewrite [RHS]big_geq // big1_seq // => t; rewrite mem_index_iota => /andP[_ /andP[_ ht]].
by rewrite leqNgt (ltn_trans ht h) mul0r expr0n.
Qed.

Lemma sv_unique m n (M : 'M[R]_(m, n)) (s s' : seq R) : singular_values M s -> singular_values M s' ->
  forall t, nth 0 s t = nth 0 s' t.
Proof.
pose T (s : seq R) N r := \sum_(r <= t < N) nth 0 s t ^+ 2.
have ext (w : seq R) N r : (size w <= N)%N -> (r <= size w)%N -> T w N r = T w (size w) r.
  move=> h1 h2; rewrite /T (big_cat_nat _ _ _ h2 h1) /= [X in _ + X]big1_seq ?addr0 // => t.
  by rewrite mem_index_iota => /andP[_ /andP[h _]]; rewrite nth_default // expr0n.
have ext0 (w : seq R) N r : (size w <= r)%N -> T w N r = 0.
  move=> h; rewrite /T big1_seq // => t; rewrite mem_index_iota => /andP[_ /andP[h' _]].
  by rewrite nth_default ?expr0n // (leq_trans h h').
move=> H H'; pose N := maxn (size s) (size s').
have le w w' : singular_values M w -> singular_values M w' -> forall r, T w' (maxn (size w) (size w')) r <= T w (maxn (size w) (size w')) r.
  move=> h h' r; case: (leqP r (size w')) => hr; last first.
    by rewrite ext0 ?(ltnW hr) // /T; apply: sumr_ge0 => t _; exact: sqr_ge0.
  rewrite ext ?leq_maxr //; apply: le_trans (sv_tail_le h h' hr) _.
  case: (leqP r (size w)) => hw.
    by rewrite -/(T w (size w) r) -(ext w (maxn (size w) (size w'))) ?leq_maxl.
  by rewrite big_geq // /T; apply: sumr_ge0 => t _; exact: sqr_ge0.
have eqT r : T s N r = T s' N r.
  by apply/eqP; rewrite eq_le (le _ _ H H') andbT; have := le _ _ H' H r; rewrite maxnC.
move=> t; case: (ltnP t N) => ht; last first.
  rewrite !nth_default //; apply: leq_trans ht; [exact: leq_maxr|exact: leq_maxl].
have sq : nth 0 s t ^+ 2 = nth 0 s' t ^+ 2.
  have := eqT t; rewrite /T !(big_ltn ht) /= -!/(T _ N t.+1) eqT; exact: addIr.
have g0 w : singular_values M w -> 0 <= nth 0 w t.
  by case=> h _ _; case: (ltnP t (size w)) => h'; [exact: h|rewrite nth_default].
by apply/eqP; rewrite -(eqr_expn2 (ltn0Sn 1)) ?g0 // sq.
Qed.
End Uniq.

Section Loop.
Variable R : rcfType.
Notation arr := (nd R).
Implicit Types (C : arr) (ls cs : seq arr).
Variable svd : arr -> res (arr * arr * arr).
Hypothesis svdP : svd_contract svd.

Lemma isom_comp (T : eqType) (I : seq T) r k (L : T -> nat -> R) (U : nat -> nat -> R) : isom I r L ->
  (forall t t', (t < k)%N -> (t' < k)%N -> \sum_(0 <= l < r) U l t * U l t' = (t == t')%:R) ->
  isom I k (fun i t => \sum_(0 <= l < r) L i l * U l t).
Proof. by move=> iL oU t t' ht ht'; rewrite (isom_dot (U^~ t) (U^~ t') iL) oU. Qed.

Lemma sv_intro sh (x : seq nat -> R) b k (Sv : arr) (A B : seq nat -> nat -> R) : is_vec Sv k ->
  (forall t, (t < k)%N -> 0 <= get Sv [:: t]) -> (forall t u, (t <= u < k)%N -> get Sv [:: u] <= get Sv [:: t]) ->
  isom (all_idx (take b.+1 sh)) k A -> isom (all_idx (drop b.+1 sh)) k B ->
  (forall i j, inb (take b.+1 sh) i -> inb (drop b.+1 sh) j ->
     x (i ++ j) = \sum_(0 <= t < k) A i t * get Sv [:: t] * B j t) ->
  singular_values (unfolding sh x b) (ndata Sv).
Proof.
move=> [wS sS] S0 Sl iA iB e.
have sz : size (ndata Sv) = k by move: wS; rewrite /nwf sS /= muln1 => /eqP.
have gS t : get Sv [:: t] = nth 0 (ndata Sv) t by rewrite /get sS /= muln1 addn0.
split; first by move=> t; rewrite sz -gS; exact: S0.
  by move=> t u; rewrite sz -!gS; exact: Sl.
exists (\matrix_(p, t) A (unravel (take b.+1 sh) p) t), (\matrix_(t, q) B (unravel (drop b.+1 sh) q) t); split.
- apply/matrixP => t t'; rewrite !mxE; have := iA t t'; rewrite -sz !ltn_ord => /(_ isT isT) <-.
  by rewrite /all_idx big_map big_mkord; apply: eq_bigr => p _; rewrite !mxE.
- apply/matrixP => t t'; rewrite !mxE; have := iB t t'; rewrite -sz !ltn_ord => /(_ isT isT) <-.
  by rewrite /all_idx big_map big_mkord; apply: eq_bigr => p _; rewrite !mxE.
apply/matrixP => p q; rewrite mxE e ?inb_unravel // -sz big_mkord mxE; apply: eq_bigr => t _.
by rewrite mul_mx_diag !mxE gS.
Qed.

Definition fitC C := (dim C 0 <= dim C 1 * dim C 2)%N.

Definition vb ls C1 : res (seq arr) :=
  do Cm <- (if (0 < size ls)%N then reshape C1 [:: dim C1 0; (dim C1 1 * dim C1 2)%N]
            else reshape C1 [:: (dim C1 0 * dim C1 1)%N; dim C1 2]);
  do usv <- svd Cm;
  let: (U, Sv, _) := usv in
  do rest' <- svdvals_loop svd (Some (U, Sv)) (rev (zip (iota 0 (size ls)) ls));
  Ok (Sv :: rest').
Lemma vbN ls C : svdvals_loop svd None (rev (zip (iota 0 (size (rcons ls C))) (rcons ls C))) = vb ls C.
Proof. by rewrite rev_zip /vb. Qed.
Lemma vbS (U Sv : arr) ls C :
  svdvals_loop svd (Some (U, Sv)) (rev (zip (iota 0 (size (rcons ls C))) (rcons ls C))) =
  (do us <- matmul U (diag Sv); do C1 <- einsum "ijk,kl->ijl" [:: C; us]; vb ls C1).
Proof. by rewrite rev_zip /vb /=; case: (matmul _ _) => [us|] //=. Qed.

Lemma us_full (U Sv : arr) m n : is_mat U m m -> is_vec Sv (minn m n) -> (m <= n)%N -> exists2 us, matmul U (diag Sv) = Ok us &
  is_mat us m m /\ forall l t, (l < m)%N -> (t < m)%N -> get us [:: l; t] = get U [:: l; t] * get Sv [:: t].
Proof.
move=> mU vS mn; rewrite (minn_idPl mn) in vS; have [m2 g2] : is_mat (diag Sv) m m /\ forall l t, (l < m)%N -> (t < m)%N ->
    get (diag Sv) [:: l; t] = (l == t)%:R * get Sv [:: l].
  case: vS => wS sS; rewrite /diag /dim sS /=; split; first by split; [exact: nwf_tab|].
  by move=> l t hl ht; rewrite get_tab /= ?hl ?ht //; case: eqP => [->|]; rewrite ?mul1r ?mul0r.
have [us -> [m3 g3]] := matmulE mU m2; exists us => //; split=> // l t hl ht.
rewrite g3 // -(sum_nat_delta_r (fun t => get U [:: l; t] * get Sv [:: t]) ht).
by apply: eq_big_nat => j hj; rewrite g2 // -mulrA [get Sv _ * _]mulrC.
Qed.

Lemma us_misfit (U Sv : arr) m n : is_mat U m m -> is_vec Sv (minn m n) -> (n < m)%N -> matmul U (diag Sv) = Err ValueError.
Proof.
move=> [_ sU] [_ sS] h; rewrite /matmul sU /diag /dim sS /= (minn_idPr (ltnW h)) (gtn_eqF h) //.
Qed.

Variables (sh : seq nat) (x : seq nat -> R).
Lemma vbP ls C1 sR r0 r' (W : seq nat -> nat -> R) : links 1 ls r0 -> (forall C, C \in ls -> left_orth C) ->
  pos_tt ls -> nwf C1 -> nshape C1 = [:: r0; dim C1 1; r'] -> (0 < dim C1 1)%N -> (0 < r')%N ->
  all fitC (rcons ls C1) -> sh = modes (rcons ls C1) ++ sR -> isom (all_idx sR) r' W ->
  (forall i j, inb (modes (rcons ls C1)) i -> inb sR j -> x (i ++ j) = \sum_(0 <= b < r') chain (rcons ls C1) i 0 b * W j b) ->
  or_linalg (vb ls C1) (fun out => size out = (size ls).+1 /\
    forall mu, (mu <= size ls)%N -> exists k, is_vec (nth (Nd [::] [::]) (rev out) mu) k /\
      singular_values (unfolding sh x mu.-1) (ndata (nth (Nd [::] [::]) (rev out) mu))).
Proof.
elim/last_ind: ls C1 sR r0 r' W => [|ls C IH] C1 sR r0 r' W L O P wC1 sC1 np rp F eS iW eX; rewrite /vb.
  move: L => /eqP er; subst r0; have [d0 d1 d2] := dim3 sC1; set n := dim C1 1 in sC1 np d1 eS *.
  rewrite [(0 < size [::])%N]/= d0 d2 -/n; have [M -> [mM gM]] := unfoldL wC1 sC1; rewrite [bind (Ok M) _]/= mul1n in mM *.
  apply: (or_bind (svdP mM)) => -[[U Sv] Vt] [mU mV oU oV vals] /=; split=> // mu; rewrite leqn0 => /eqP -> /=.
  have vS : is_vec Sv (minn n r') by case: vals.
  exists (minn n r'); split=> //; case: (vals) => _ S0 Sl eM.
  have e1 : take 1 sh = [:: n] by rewrite eS /= take0.
  have e2 : drop 1 sh = sR by rewrite eS /= drop0.
  apply: (@sv_intro sh x 0 (minn n r') Sv (fun i t => get U [:: nth 0%N i 0; t]) (fun j t => \sum_(0 <= b < r') W j b * get Vt [:: t; b])) => //.
  - rewrite e1 => t t' ht ht'; rewrite -sum_idxE /= -(oU t t'); last 2 first.
    + by apply: leq_trans ht _; exact: geq_minl.
    + by apply: leq_trans ht' _; exact: geq_minl.
    by apply: eq_bigr.
  - rewrite e2; apply: isom_comp iW _ => t t' ht ht'; apply: oV.
      by apply: leq_trans ht _; exact: geq_minr.
    by apply: leq_trans ht' _; exact: geq_minr.
  rewrite e1 e2 => -[|k [|? ?]] // j; rewrite [inb [:: n] _]/= ?andbF // andbT => hk hj.
  rewrite -cat1s eX /= ?hk // d2; transitivity (\sum_(0 <= b < r') get M [:: k; b] * W j b).
    apply: eq_big_nat => b /andP[_ hb]; congr (_ * _); have := gM 0%N k b; rewrite mul0n add0n => ->.
    exact: (sum_nat_delta_r (fun l => get C1 [:: 0%N; k; l]) hb).
  under eq_big_nat => b /andP[_ hb] do rewrite eM // big_distrl /=.
  rewrite exchange_big /=; apply: eq_bigr => t _; rewrite big_distrr /=; apply: eq_bigr => b _.
  by rewrite -!mulrA; congr (_ * (_ * _)); exact: mulrC.
have [q [Lq wC sC]] := links_rcons L.
have [C0e C1e C2e] := dim3 sC; have [D0e D1e D2e] := dim3 sC1.
set m := dim C 1 in sC C1e *; set n := dim C1 1 in sC1 np D1e *.
have Pls : pos_tt ls /\ (0 < m)%N && (0 < r0)%N.
  by move: P; rewrite /pos_tt all_rcons /= -/m C2e => /andP[-> ->].
case: Pls => Pls /andP[mp r0p].
have Ols C' : C' \in ls -> left_orth C' by move=> h; apply: O; rewrite mem_rcons in_cons h orbT.
have [r0n Frc] : (r0 <= n * r')%N /\ all fitC (rcons ls C).
  by move: F; rewrite all_rcons {1}/fitC D0e D2e -/n => /andP[].
rewrite size_rcons [(0 < _)%N]/= D0e D2e -/n; have [M -> [mM gM]] := unfoldR wC1 sC1.
rewrite [bind _ _]/=; apply: (or_bind (svdP mM)) => -[[U Sv] Vt] [mU mV oU oV vals].
have vS : is_vec Sv (minn r0 (n * r')) by case: vals.
have ek : minn r0 (n * r') = r0 by apply/minn_idPl.
rewrite -[0%N :: _]/(iota 0 (size ls).+1) -(size_rcons ls C) vbS.
have [us -> [mus gus]] := us_full mU vS r0n; rewrite [bind (Ok us) _]/= (es_ijk_kl sC mus.2) [bind (Ok _) _]/=.
set C2 := tab3 _ _ _ _; have wC2 : nwf C2 := nwf_tab3 _ _ _ _.
have sC2 : nshape C2 = [:: q; m; r0] by [].
have [E0e E1e E2e] := dim3 sC2.
have sC2' : nshape C2 = [:: q; dim C2 1; r0] by rewrite E1e.
have m2p : (0 < dim C2 1)%N by rewrite E1e.
have Mrc : modes (rcons ls C2) = modes (rcons ls C) by rewrite /modes !map_rcons E1e.
have modE : modes (rcons (rcons ls C) C1) = rcons (modes (rcons ls C)) n by rewrite /modes !map_rcons.
have F2 : all fitC (rcons ls C2).
  by move: Frc; rewrite !all_rcons /fitC C0e C2e -/m E0e E1e E2e.
have eS2 : sh = modes (rcons ls C2) ++ (n :: sR) by rewrite eS modE Mrc cat_rcons.
pose W' j t := \sum_(0 <= b < r') W (behead j) b * get Vt [:: t; (head 0%N j * r' + b)%N].
have iW' : isom (all_idx (n :: sR)) r0 W'.
  move=> t t' ht ht'; rewrite -sum_idxE /= -(oV t t'); last 2 first.
  - exact: leq_trans ht r0n.
  - exact: leq_trans ht' r0n.
  rewrite sum_nat_mul; apply: eq_bigr => k _; rewrite sum_idxE.
  by rewrite (isom_dot (fun b => get Vt [:: t; (k * r' + b)%N]) (fun b => get Vt [:: t'; (k * r' + b)%N]) iW).
have iL : isom (all_idx (modes (rcons ls C))) r0 (fun i l => chain (rcons ls C) i 0 l) by apply: left_isom.
(* the whole tensor at this bond *)
have XE i k j : inb (modes (rcons ls C)) i -> (k < n)%N -> inb sR j ->
   x (i ++ k :: j) = \sum_(0 <= t < r0) (\sum_(0 <= l < r0) chain (rcons ls C) i 0 l * get U [:: l; t]) * get Sv [:: t] * W' (k :: j) t.
  move=> hi hk hj; have si : size i = size (rcons ls C) by rewrite (inb_size hi) size_map.
  rewrite -cat_rcons eX //; last by rewrite modE inb_rcons ?hi // (inb_size hi).
  transitivity (\sum_(0 <= b < r') \sum_(0 <= l < r0) \sum_(0 <= t < r0) chain (rcons ls C) i 0 l * (get U [:: l; t] * get Sv [:: t] * (get Vt [:: t; (k * r' + b)%N] * W j b))).
    apply: eq_big_nat => b /andP[_ hb]; rewrite (chain_rcons _ L si (ltn0Sn 0)) ?D2e // big_distrl /=.
    apply: eq_big_nat => l /andP[_ hl]; case: vals => _ _ _ eM.
    rewrite -gM (eM _ _ hl (flat_lt hk hb)) ek -mulrA; rewrite [X in _ * X]big_distrl [LHS]big_distrr /=.
    by apply: eq_bigr => t _; rewrite !mulrA.
  rewrite exch_seq; under eq_bigr => l _ do rewrite exch_seq.
  rewrite exch_seq; apply: eq_bigr => t _; rewrite /W' /= -mulrA big_distrl /=; apply: eq_bigr => l _.
  rewrite !big_distrr /=; apply: eq_bigr => b _; rewrite -!mulrA; congr (_ * (_ * (_ * _))); exact: mulrC.
have X2 i j : inb (modes (rcons ls C2)) i -> inb (n :: sR) j ->
   x (i ++ j) = \sum_(0 <= b < r0) chain (rcons ls C2) i 0 b * W' j b.
  rewrite Mrc; case: j => [|k j] // hi /andP[hk hj]; rewrite XE //; apply: eq_big_nat => t /andP[_ ht]; congr (_ * _).
  rewrite /C2 (chain_us us Lq wC sC hi ht) big_distrl /=; apply: eq_big_nat => l /andP[_ hl]; by rewrite gus // mulrA.
apply: (or_bind (IH C2 (n :: sR) q r0 W' Lq Ols Pls wC2 sC2' m2p r0p F2 eS2 iW' X2)) => out [so H] /=.
rewrite so size_rcons; split=> // mu hmu; rewrite rev_cons nth_rcons size_rev so.
case: ltnP => h; first by apply: H.
have -> : mu = (size ls).+1 by apply/eqP; rewrite eqn_leq hmu.
rewrite eqxx; exists r0; rewrite ek in vS; split=> //; case: (vals) => _ S0 Sl _; rewrite ek in S0 Sl.
have szm : size (modes (rcons ls C)) = (size ls).+1 by rewrite size_map size_rcons.
have e1 : take (size ls).+1 sh = modes (rcons ls C) by rewrite eS2 Mrc -szm take_size_cat.
have e2 : drop (size ls).+1 sh = n :: sR by rewrite eS2 Mrc -szm drop_size_cat.
apply: (@sv_intro sh x (size ls) r0 Sv (fun i t => \sum_(0 <= l < r0) chain (rcons ls C) i 0 l * get U [:: l; t]) W') => //.
- rewrite e1; apply: isom_comp iL _ => t t' ht ht'; exact: oU.
- by rewrite e2.
rewrite e1 e2 => i [|k j] // hi /andP[hk hj]; exact: XE.
Qed.

(* ranks which do not fit *)
Lemma vb_misfit ls C1 r0 r' : links 1 ls r0 -> pos_tt ls -> nwf C1 -> nshape C1 = [:: r0; dim C1 1; r'] -> (0 < dim C1 1)%N -> (0 < r')%N ->
  ~~ all fitC (rcons ls C1) -> vb ls C1 = Err ValueError \/ vb ls C1 = Err LinAlgError.
Proof.
elim/last_ind: ls C1 r0 r' => [|ls C IH] C1 r0 r' L P wC1 sC1 np rp F; rewrite /vb.
  move: L => /eqP er; subst r0; have [d0 d1 d2] := dim3 sC1.
  by move: F; rewrite /= /fitC d0 d2 muln_gt0 np rp.
have [q [Lq wC sC]] := links_rcons L.
have [C0e C1e C2e] := dim3 sC; have [D0e D1e D2e] := dim3 sC1.
set m := dim C 1 in sC C1e *; set n := dim C1 1 in sC1 np D1e *.
have Pls : pos_tt ls /\ (0 < m)%N && (0 < r0)%N.
  by move: P; rewrite /pos_tt all_rcons /= -/m C2e => /andP[-> ->].
case: Pls => Pls /andP[mp r0p].
rewrite size_rcons [(0 < _)%N]/= D0e D2e -/n; have [M -> [mM gM]] := unfoldR wC1 sC1.
rewrite [bind _ _]/=; have := svdP mM; case: (svd M) => [[[U Sv] Vt]|[]] //=; last by move=> _; right.
case=> mU mV oU oV [vS _ _ _].
rewrite -[0%N :: _]/(iota 0 (size ls).+1) -(size_rcons ls C) vbS.
case: (leqP r0 (n * r')) => hr; last by left; rewrite (us_misfit mU vS hr).
have [us -> [mus _]] := us_full mU vS hr; rewrite [bind (Ok us) _]/= (es_ijk_kl sC mus.2) [bind (Ok _) _]/=.
set C2 := tab3 _ _ _ _; have wC2 : nwf C2 := nwf_tab3 _ _ _ _.
have sC2 : nshape C2 = [:: q; m; r0] by [].
have [E0e E1e E2e] := dim3 sC2.
have sC2' : nshape C2 = [:: q; dim C2 1; r0] by rewrite E1e.
have m2p : (0 < dim C2 1)%N by rewrite E1e.
have F2 : ~~ all fitC (rcons ls C2).
  by move: F; rewrite !all_rcons /fitC D0e D2e -/n hr /= C0e C2e -/m E0e E1e E2e.
by case: (IH C2 q r0 Lq Pls wC2 sC2' m2p r0p F2) => ->; [left|right].
Qed.
End Loop.
