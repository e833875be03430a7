(* Proofs about TensorTrain.round (tensor.py:446-484). *)
From Coq Require Import String Ascii.
From mathcomp Require Import all_ssreflect all_algebra.
From mathcomp Require Import zify.
From Verif Require Import Py Nd NdThy Ein Utils Tensor Spec LinSpec ChainThy TensorThy TensorThy2.
From Verif Require Import TensorThy4 GatherThy DotThy TrimThy TensorNum SweepThy NormThy RoundSpec.
Set Implicit Arguments. Unset Strict Implicit. Unset Printing Implicit Defensive.
Import GRing.Theory Num.Theory Order.TTheory.
Local Open Scope ring_scope.

Section Ghost.
Variable R : rcfType.
Notation arr := (nd R).
Variable qr : arr -> res (arr * arr).
Variable svd : arr -> res (arr * arr * arr).
Variable svd_red : arr -> res (arr * arr * arr).

Lemma round_loop_erase eps mr US rcs :
  round_loop svd eps mr US rcs = (do x <- round_loop_g svd eps mr US rcs; Ok x.1).
Proof.
elim: rcs US => [|[mu C] rcs IH] US //=.
case: (match US with None => _ | _ => _ end) => [C1|] //=; case: ifP => _.
  case: (reshape _ _) => [Cm|] //=; case: (svd Cm) => [[[U S'] V]|] //=.
  case: (count_above _ _) => [k|] //=; case: (pyget _ _) => [m|] //=.
  case: (matmul _ _) => [us|] //=; case: (reshape _ _) => [V'|] //=; rewrite IH.
  by case: (round_loop_g _ _ _ _ _).
by rewrite IH; case: (round_loop_g _ _ _ _ _).
Qed.

Lemma round_erase cs eps mr o :
  tt_round qr svd cs eps mr o = (do x <- tt_round_g qr svd cs eps mr o; Ok x.1).
Proof.
rewrite /tt_round /tt_round_g; case: (if o then _ else _) => [tt1|] //=.
case: (process_tt_rank _ _ _) => [rk|] //=; rewrite round_loop_erase.
by case: (round_loop_g _ _ _ _ _).
Qed.

Lemma tt_svd_loop_erase sh rk mus prev T :
  tt_svd_loop svd_red sh rk mus prev T = (do x <- tt_svd_loop_g svd_red sh rk mus prev T; Ok x.1).
Proof.
elim: mus prev T => [|mu mus IH] prev T //=.
case: (matricize _ _ _) => [M|] //=; case: (svd_red M) => [[[U S'] V]|] //=.
case: (pyget _ _) => [m|] //=; case: (reshape _ _) => [c|] //=.
case: (diag_mul _ _ _) => [T1|] //=; case: (reshape _ _) => [T2|] //=; rewrite IH.
by case: (tt_svd_loop_g _ _ _ _ _ _).
Qed.
Lemma tt_svd_erase X rk :
  tt_svd svd_red X rk = (do x <- tt_svd_g svd_red X rk; Ok x.1).
Proof.
rewrite /tt_svd /tt_svd_g; case: (to_numpy X) => [a|] //=.
case: (process_tt_rank _ _ _) => [rk'|] //=.
case: (matricize _ _ _) => [M|] //=; case: (svd_red M) => [[[U S'] V]|] //=.
case: (pyget _ _) => [m|] //=; case: (reshape _ _) => [c|] //=.
case: (diag_mul _ _ _) => [T1|] //=; case: (reshape _ _) => [T2|] //=; rewrite tt_svd_loop_erase.
case: (tt_svd_loop_g _ _ _ _ _ _) => [[[[cs' p] T'] l]|] //=.
by case: (reshape _ _).
Qed.
End Ghost.

Section Trunc.
Variable R : rcfType.
Notation arr := (nd R).
Implicit Types (A U Sv Vt C : arr).

(* facts about the rank-r truncation of an SVD *)
Section One.
Variables (A U Sv Vt : arr) (m n r : nat).
Let k := minn m n.
Hypothesis oU : forall b c, (b < k)%N -> (c < k)%N ->
  \sum_(0 <= i < m) get U [:: i; b] * get U [:: i; c] = (b == c)%:R.
Hypothesis oV : forall b c, (b < k)%N -> (c < k)%N ->
  \sum_(0 <= j < n) get Vt [:: b; j] * get Vt [:: c; j] = (b == c)%:R.
Hypothesis vals : svd_values A U Sv Vt m n.
Hypothesis rk : (r <= k)%N.

Definition tail (l p : nat) : R :=
  \sum_(r <= t < k) get U [:: l; t] * get Sv [:: t] * get Vt [:: t; p].

Lemma tailE l p : (l < m)%N -> (p < n)%N ->
  get A [:: l; p] = \sum_(0 <= t < r) get U [:: l; t] * get Sv [:: t] * get Vt [:: t; p] + tail l p.
Proof.
move=> hl hp; case: vals => _ _ _ ->//; rewrite -/k.
by rewrite (big_cat_nat _ _ _ (leq0n r) rk).
Qed.

Lemma isomV : isom (index_iota 0 n) r (fun p t => get Vt [:: t; p]).
Proof. by move=> t t' ht ht'; rewrite oV //; exact: leq_trans rk. Qed.
Lemma isomU : isom (index_iota 0 m) r (fun l t => get U [:: l; t]).
Proof. by move=> t t' ht ht'; rewrite oU //; exact: leq_trans rk. Qed.

Lemma tail0V t l : (t < r)%N -> \sum_(0 <= p < n) get Vt [:: t; p] * tail l p = 0.
Proof.
move=> ht; under eq_bigr => p _ do rewrite /tail big_distrr /=.
rewrite exchange_big /= big_nat big1 // => t' /andP[h1 h2].
transitivity (get U [:: l; t'] * get Sv [:: t'] * \sum_(0 <= p < n) get Vt [:: t; p] * get Vt [:: t'; p]).
  by rewrite big_distrr /=; apply: eq_bigr => p _; rewrite mulrCA mulrA.
rewrite oV //; last exact: leq_trans ht rk.
by case: eqP => [E|_]; rewrite ?mulr0 //; move: h1; rewrite -E leqNgt ht.
Qed.
Lemma tail0U t p : (t < r)%N -> \sum_(0 <= l < m) get U [:: l; t] * tail l p = 0.
Proof.
move=> ht; under eq_bigr => l _ do rewrite /tail big_distrr /=.
rewrite exchange_big /= big_nat big1 // => t' /andP[h1 h2].
transitivity (get Sv [:: t'] * get Vt [:: t'; p] * \sum_(0 <= l < m) get U [:: l; t] * get U [:: l; t']).
  by rewrite big_distrr /=; apply: eq_bigr => l _; rewrite -!mulrA mulrA mulrC !mulrA.
rewrite oU //; last exact: leq_trans ht rk.
by case: eqP => [E|_]; rewrite ?mulr0 //; move: h1; rewrite -E leqNgt ht.
Qed.

Lemma sum_drop (F : R -> R) : is_vec Sv k ->
  \sum_(s <- drop r (ndata Sv)) F s = \sum_(r <= t < k) F (get Sv [:: t]).
Proof.
case=> wS sS; have sz : size (ndata Sv) = k by move: wS; rewrite /nwf sS /= muln1 => /eqP.
rewrite (big_nth 0) size_drop sz -[X in _ = \sum_(X <= t < k) _]add0n big_addn; apply: eq_big_nat => t ht.
by rewrite nth_drop /get sS /= muln1 addn0 addnC.
Qed.

Lemma tail_sq : \sum_(0 <= l < m) \sum_(0 <= p < n) tail l p ^+ 2
  = \sum_(s <- drop r (ndata Sv)) s ^+ 2.
Proof.
case: vals => vS _ _ _; rewrite (sum_drop (fun s => s ^+ 2) vS).
pose x l t : R := (r <= t)%:R * (get U [:: l; t] * get Sv [:: t]).
have tE l p : tail l p = \sum_(0 <= t < k) get Vt [:: t; p] * x l t.
  rewrite (big_cat_nat _ _ _ (leq0n r) rk) /= [X in _ = X + _]big_nat big1 ?add0r.
    by apply: eq_big_nat => t /andP[h _]; rewrite /x h mul1r mulrC.
  by move=> t /andP[_ h]; rewrite /x leqNgt h mul0r mulr0.
have oV' : isom (index_iota 0 n) k (fun p t => get Vt [:: t; p]) by move=> t t' ht ht'; rewrite oV.
under eq_bigr => l _ do (under eq_bigr => p _ do rewrite tE; rewrite (isom_sq _ oV')).
rewrite exchange_big /= (big_cat_nat _ _ _ (leq0n r) rk) /= big_nat big1 ?add0r.
  apply: eq_big_nat => t /andP[h h'].
  transitivity (get Sv [:: t] ^+ 2 * \sum_(0 <= l < m) get U [:: l; t] * get U [:: l; t]).
    rewrite big_distrr /=; apply: eq_bigr => l _; rewrite /x h mul1r exprMn mulrC expr2.
    by rewrite [get U _ ^+ 2]expr2.
  by rewrite oU // eqxx mulr1.
by move=> t /andP[_ h]; rewrite big1 // => l _; rewrite /x leqNgt h mul0r expr0n.
Qed.
End One.

Lemma slice_cols U m n r : is_mat U m n -> (r <= n)%N ->
  is_mat (slice_ax 1 0 r U) m r /\ forall l t, (l < m)%N -> (t < r)%N -> get (slice_ax 1 0 r U) [:: l; t] = get U [:: l; t].
Proof.
case=> wU sU hr; rewrite /slice_ax /dim sU /= (minn_idPl hr) min0n subn0.
split; first by split; [exact: nwf_tab | ].
by move=> l t hl ht; rewrite get_tab //= hl ht.
Qed.
Lemma slice_rows U m n r : is_mat U m n -> (r <= m)%N ->
  is_mat (slice_ax 0 0 r U) r n /\ forall l t, (l < r)%N -> (t < n)%N -> get (slice_ax 0 0 r U) [:: l; t] = get U [:: l; t].
Proof.
case=> wU sU hr; rewrite /slice_ax /dim sU /= (minn_idPl hr) min0n subn0.
split; first by split; [exact: nwf_tab | ].
by move=> l t hl ht; rewrite get_tab //= hl ht.
Qed.
Lemma slice_diag Sv k r : is_vec Sv k -> (r <= k)%N ->
  is_mat (diag (slice_ax 0 0 r Sv)) r r /\ forall l t, (l < r)%N -> (t < r)%N ->
    get (diag (slice_ax 0 0 r Sv)) [:: l; t] = (l == t)%:R * get Sv [:: l].
Proof.
case=> wS sS hr; rewrite /diag /slice_ax /dim sS /= (minn_idPl hr) min0n subn0 /=.
split; first by split; [exact: nwf_tab | ].
move=> l t hl ht; rewrite get_tab /= ?hl ?ht //.
by case: eqP => _; rewrite ?mul0r // mul1r get_tab //= hl.
Qed.
Lemma matmulE A U m n p : is_mat A m n -> is_mat U n p ->
  exists2 B, matmul A U = Ok B & is_mat B m p /\ forall i j, (i < m)%N -> (j < p)%N ->
    get B [:: i; j] = \sum_(0 <= l < n) get A [:: i; l] * get U [:: l; j].
Proof.
case=> wA sA [wU sU]; rewrite /matmul sA sU eqxx; eexists; first by [].
split; first by split; [exact: nwf_tab|].
by move=> i j hi hj; rewrite get_tab ?sumrE //= hi hj.
Qed.

Lemma us_mat U Sv m k n r : is_mat U m n -> is_vec Sv k -> (r <= n)%N -> (r <= k)%N ->
  exists2 us, matmul (slice_ax 1 0 r U) (diag (slice_ax 0 0 r Sv)) = Ok us &
  is_mat us m r /\ forall l t, (l < m)%N -> (t < r)%N -> get us [:: l; t] = get U [:: l; t] * get Sv [:: t].
Proof.
move=> mU vS rn rk; have [m1 g1] := slice_cols mU rn; have [m2 g2] := slice_diag vS rk.
have [us -> [m3 g3]] := matmulE m1 m2; exists us => //; split=> // l t hl ht.
rewrite g3 // -(sum_nat_delta_r (fun t => get U [:: l; t] * get Sv [:: t]) ht).
by apply: eq_big_nat => j hj; rewrite g1 // g2 // -mulrA [get Sv _ * _]mulrC.
Qed.

Lemma sv_us Sv V n k m r : is_mat V m n -> is_vec Sv k -> (r <= m)%N -> (r <= k)%N ->
  exists2 sv, diag_mul r Sv V = Ok sv &
  is_mat sv r n /\ forall t p, (t < r)%N -> (p < n)%N -> get sv [:: t; p] = get Sv [:: t] * get V [:: t; p].
Proof.
move=> mV vS rm rk; have [m1 g1] := slice_rows mV rm; have [m2 g2] := slice_diag vS rk.
rewrite /diag_mul; have [us -> [m3 g3]] := matmulE m2 m1; exists us => //; split=> // t p ht hp.
rewrite g3 // -(sum_nat_delta (fun t => get Sv [:: t] * get V [:: t; p]) ht).
apply: eq_big_nat => j hj; rewrite g1 // g2 // [t == j]eq_sym -mulrA.
by case: eqP => [->|]; rewrite ?mul0r.
Qed.

Lemma count_aboveE Sv k eps : is_vec Sv k -> (0 < k)%N ->
  exists2 c, count_above Sv eps = Ok c & (c <= k)%N /\ c = count (fun s => get Sv [:: 0%N] * eps < s) (ndata Sv).
Proof.
case=> wS sS kp; have sz : size (ndata Sv) = k by move: wS; rewrite /nwf sS /= muln1 => /eqP.
rewrite /count_above /get sS /=; case E : (ndata Sv) sz => [|s0 sv] /= sz; first by rewrite -sz in kp.
by eexists; first by []; split=> //; rewrite -sz; exact: (count_size _ (s0 :: sv)).
Qed.
End Trunc.

Lemma pygetE (A : Type) (x0 : A) (l : seq A) k : (k < size l)%N -> pyget l k = Ok (nth x0 l k).
Proof. by move=> hk; rewrite /pyget (drop_nth x0 hk). Qed.

Lemma big_nat_recl' (R : zmodType) n (F : nat -> R) : (0 < n)%N ->
  \sum_(0 <= t < n) F t = F 0%N + \sum_(1 <= t < n) F t.
Proof. by move=> np; rewrite big_ltn. Qed.

Section Misc.
Variable R : rcfType.
Notation arr := (nd R).
Lemma links_last a (cs : seq arr) b n : links a cs b -> size cs = n.+1 -> dim (nth (Nd [::] [::]) cs n) 2 = b.
Proof.
elim: cs a n => [|C cs IH] a n //= /and3P[_ _ L] [E].
by case: cs L E IH => [/eqP <- <-|C' cs L E IH] //=; rewrite -E (IH _ (size cs) L).
Qed.
Lemma inb_rconsP s n i : inb (rcons s n) i -> exists j k, [/\ i = rcons j k, inb s j & (k < n)%N].
Proof.
case/lastP: i => [|j k] h; first by move/inb_size: h; rewrite size_rcons.
have sj : size j = size s by move/inb_size: (h); rewrite !size_rcons => -[].
by exists j, k; rewrite inb_rcons // in h; case/andP: h.
Qed.
Lemma chain_us ls (C us : arr) q m r0 r i t : links 1 ls q -> nwf C -> nshape C = [:: q; m; r0] ->
  inb (modes (rcons ls C)) i -> (t < r)%N ->
  chain (rcons ls (tab3 q m r (fun xi xj xl => \sum_(0 <= xk < r0) get C [:: xi; xj; xk] * get us [:: xk; xl]))) i 0 t
  = \sum_(0 <= l < r0) chain (rcons ls C) i 0 l * get us [:: l; t].
Proof.
move=> L wC sC; have [_ d1 d2] := dim3 sC; rewrite /modes map_rcons => /inb_rconsP[j [k [-> hj hk]]] ht.
rewrite d1 in hk.
have sj : size j = size ls by rewrite (inb_size hj) size_map.
rewrite (chain_rcons _ L sj (ltn0Sn 0)) //.
under eq_big_nat => s hs do rewrite get_tab3 // big_distrr /=.
rewrite exchange_big /=; apply: eq_big_nat => l hl.
rewrite (chain_rcons _ L sj (ltn0Sn 0)) ?d2 // big_distrl /=.
by apply: eq_bigr => s _; rewrite mulrA.
Qed.
End Misc.

Section Round.
Variable R : rcfType.
Notation arr := (nd R).
Implicit Types (C : arr) (ls : seq arr).
Variable svd : arr -> res (arr * arr * arr).
Hypothesis svdP : svd_contract svd.
Variables (eps : R) (mr : seq nat).

(* the loop body after the multiplication by US *)
Definition round_body C1 ls : res (seq arr * seq (seq R)) :=
  if (0 < size ls)%N then
    do Cm <- reshape C1 [:: dim C1 0; (dim C1 1 * dim C1 2)%N];
    do usv <- svd Cm;
    let: (U, Sv, Vt) := usv in
    do k <- count_above Sv eps;
    do m <- pyget mr (size ls).-1;
    let r := maxn 1 (minn k m) in
    do us' <- matmul (slice_ax 1 0 r U) (diag (slice_ax 0 0 r Sv));
    do V <- reshape (slice_ax 0 0 r Vt) [:: r; dim C1 1; dim C1 2];
    do rest' <- round_loop_g svd eps mr (Some us') (rev (zip (iota 0 (size ls)) ls));
    Ok (V :: rest'.1, drop r (ndata Sv) :: rest'.2)
  else Ok ([:: C1], [::]).

Lemma rev_zip ls C : rev (zip (iota 0 (size (rcons ls C))) (rcons ls C))
  = (size ls, C) :: rev (zip (iota 0 (size ls)) ls).
Proof. by rewrite size_rcons -addn1 iotaD /= cats1 zip_rcons ?size_iota // rev_rcons. Qed.

Lemma round_loopN ls C :
  round_loop_g svd eps mr None (rev (zip (iota 0 (size (rcons ls C))) (rcons ls C))) = round_body C ls.
Proof. by rewrite rev_zip /round_body; case: ls. Qed.
Lemma round_loopS us ls C :
  round_loop_g svd eps mr (Some us) (rev (zip (iota 0 (size (rcons ls C))) (rcons ls C))) =
  (do C1 <- einsum "ijk,kl->ijl" [:: C; us]; round_body C1 ls).
Proof. by rewrite rev_zip /round_body; case: ls => [|c ls] //=. Qed.

Definition sqsum ls (r : nat) (f : seq nat -> nat -> R) : R :=
  sum_idx (modes ls) (fun i => \sum_(0 <= b < r) f i b ^+ 2).

(* what is known about the values [d] dropped at a bond truncated from rank [old] to
   rank [new] with budget [m], when the squared norm of the tensor is [N] *)
Definition disc_ok (old new m : nat) (N : R) (d : seq R) : Prop :=
  [/\ (size d <= old - new)%N, (forall s, s \in d -> 0 <= s) &
      (new < m)%N -> 0 <= eps -> forall s, s \in d -> s ^+ 2 <= eps ^+ 2 * N].
Lemma disc_ok_le old new m N N' d : N <= N' -> disc_ok old new m N d -> disc_ok old new m N' d.
Proof.
move=> le [H1 H0 H2]; split=> // hm he s hs; apply: le_trans (H2 hm he s hs) _.
by apply: ler_wpmul2l => //; exact: sqr_ge0.
Qed.
Lemma disc_okI Sv old m c (N : R) : is_vec Sv c -> (0 < c)%N -> (c <= old)%N ->
  (forall k, (k < c)%N -> 0 <= get Sv [:: k]) ->
  (forall k l, (k <= l < c)%N -> get Sv [:: l] <= get Sv [:: k]) ->
  get Sv [:: 0%N] ^+ 2 <= N ->
  let r := maxn 1 (minn (count (fun s => get Sv [:: 0%N] * eps < s) (ndata Sv)) m) in
  disc_ok old r m N (drop r (ndata Sv)).
Proof.
move=> vS cp co S0 Sd SN r; have [wS sS] := vS.
have sz : size (ndata Sv) = c by move: wS; rewrite /nwf sS /= muln1 => /eqP.
have gS k : get Sv [:: k] = nth 0 (ndata Sv) k by rewrite /get sS /= muln1 addn0.
split; first by rewrite size_drop sz leq_sub2r.
  move=> s /(nthP 0)[t]; rewrite size_drop sz nth_drop => ht <-; rewrite -gS; apply: S0; lia.
move=> rm e0 s /(nthP 0)[t]; rewrite size_drop sz nth_drop => ht <-.
set x := nth _ _ _; suff xle : x <= get Sv [:: 0%N] * eps.
  have x0 : 0 <= x by rewrite /x -gS; apply: S0; lia.
  apply: le_trans (_ : (get Sv [:: 0%N] * eps) ^+ 2 <= _).
    by rewrite ler_sqr ?nnegrE // mulr_ge0 // S0.
  by rewrite exprMn mulrC; apply: ler_wpmul2l => //; exact: sqr_ge0.
rewrite leNgt; apply/negP => hx.
pose Pr s := get Sv [:: 0%N] * eps < s.
have cnt : (r + t < count Pr (ndata Sv))%N.
  rewrite -(cat_take_drop (r + t).+1 (ndata Sv)) count_cat.
  have -> : count Pr (take (r + t).+1 (ndata Sv)) = (r + t).+1.
    rewrite -[RHS](_ : size (take (r + t).+1 (ndata Sv)) = _); last by rewrite size_takel // sz; lia.
    apply/eqP; rewrite -all_count; apply/(all_nthP 0) => u; rewrite size_takel ?sz; last by lia.
    move=> hu; rewrite nth_take //; apply: lt_le_trans hx _; rewrite /x -!gS; apply: Sd; lia.
  by rewrite leq_addr.
by move: rm cnt; rewrite /r -/Pr; clear; lia.
Qed.

(* a bound for the rank at bond k *)
Definition cap ls (out : seq arr) (k : nat) : nat := minn (dim (nth (Nd [::] [::]) ls k) 2)
  (dim (nth (Nd [::] [::]) out k.+1) 1 * dim (nth (Nd [::] [::]) out k.+1) 2)%N.

Definition round_post C1 ls (r' : nat) (res : seq arr * seq (seq R)) : Prop :=
  let out := rev res.1 in
  [/\ links 1 out r', modes out = modes (rcons ls C1),
      all_but_first (fun C => right_orth C) out /\ pos_tt out,
      (forall k, (k < size ls)%N -> (dim (nth (Nd [::] [::]) out k) 2 <= maxn 1 (nth 0%N mr k))%N
         /\ (dim (nth (Nd [::] [::]) out k) 2 <= cap ls out k)%N) /\ size res.2 = size ls
      /\ (forall k, (k < size ls)%N -> disc_ok (cap ls out k)
            (dim (nth (Nd [::] [::]) out k) 2) (nth 0%N mr k)
            (sqsum (rcons ls C1) r' (fun i b => chain (rcons ls C1) i 0 b)) (nth [::] (rev res.2) k)) &
      sqsum (rcons ls C1) r' (fun i b => chain (rcons ls C1) i 0 b - chain out i 0 b) = sum_sq res.2
      /\ sqsum (rcons ls C1) r' (fun i b => chain (rcons ls C1) i 0 b)
          = sqsum (rcons ls C1) r' (fun i b => chain out i 0 b) + sum_sq res.2].

Lemma round_bodyP ls C1 r0 r' : links 1 ls r0 -> (forall C, C \in ls -> left_orth C) ->
  pos_tt ls -> nwf C1 -> nshape C1 = [:: r0; dim C1 1; r'] -> (0 < dim C1 1)%N -> (0 < r')%N ->
  (size ls <= size mr)%N ->
  or_linalg (round_body C1 ls) (round_post C1 ls r').
Proof.
elim/last_ind: ls C1 r0 r' => [|ls C IH] C1 r0 r' L O P wC1 sC1 np rp sm; rewrite /round_body /=.
  move: L => /eqP er; subst r0; have [_ _ d2] := dim3 sC1.
  split=> //=.
  - by rewrite wC1 {1}sC1 d2 !eqxx.
  - by split; [case|rewrite np d2 rp].
  - rewrite /sqsum /sum_sq big_nil addr0; split=> //.
    rewrite -[RHS](sum_idx0 _ (modes [:: C1])); apply: eq_sum_idx => i _.
    by rewrite big1 // => b _; rewrite subrr expr0n.
have [q [Lq wC sC]] := links_rcons L.
have [C0e C1e C2e] := dim3 sC; have [D0e D1e D2e] := dim3 sC1.
set m := dim C 1 in sC C1e *; set n := dim C1 1 in sC1 np D1e *.
have Pls : pos_tt ls /\ (0 < m)%N && (0 < r0)%N.
  by move: P; rewrite /pos_tt all_rcons /= -/m C2e => /andP[-> ->].
case: Pls => Pls /andP[mp r0p].
have Ols C' : C' \in ls -> left_orth C' by move=> h; apply: O; rewrite mem_rcons in_cons h orbT.
rewrite size_rcons [(0 < _)%N]/= D0e D2e -/n; have [M -> [mM gM]] := unfoldR wC1 sC1.
rewrite [bind _ _]/=; apply: (or_bind (svdP mM)) => -[[U Sv] Vt] [mU mV oU oV vals].
have kp : (0 < minn r0 (n * r'))%N by rewrite leq_min r0p muln_gt0 np rp.
have vS : is_vec Sv (minn r0 (n * r')) by case: vals.
have [c -> [cle ec]] := count_aboveE eps vS kp; rewrite [bind _ _]/=.
have smr : (size ls < size mr)%N by rewrite size_rcons in sm.
rewrite (pygetE 0%N smr) [bind _ _]/=; set r := maxn 1 _.
have rk : (r <= minn r0 (n * r'))%N.
  by rewrite /r geq_max kp /=; apply: leq_trans cle; apply: geq_minl.
have rr0 : (r <= r0)%N by apply: leq_trans rk _; apply: geq_minl.
have rnr : (r <= n * r')%N by apply: leq_trans rk _; apply: geq_minr.
have r_p : (0 < r)%N by rewrite /r leq_maxl.
have [us -> [mus gus]] := us_mat mU vS rr0 rk; rewrite [bind _ _]/=.
have [mV' gV'] := slice_rows mV rnr.
have [V -> [wV sV gV]] := foldR mV'; rewrite [bind (Ok V) _]/=.
rewrite -[0%N :: _]/(iota 0 (size ls).+1) -(size_rcons ls C) round_loopS (es_ijk_kl sC mus.2) [bind (Ok _) _]/=.
set C2 := tab3 _ _ _ _; have wC2 : nwf C2 := nwf_tab3 _ _ _ _.
have sC2 : nshape C2 = [:: q; m; r] by [].
have [E0e E1e E2e] := dim3 sC2; have [F0e F1e F2e] := dim3 sV.
have sC2' : nshape C2 = [:: q; dim C2 1; r] by rewrite E1e.
have m2p : (0 < dim C2 1)%N by rewrite E1e.
apply: (or_bind (IH C2 q r Lq Ols Pls wC2 sC2' m2p r_p (ltnW smr))) => -[res1 res2].
rewrite /round_post [X in X -> _]/=; set out := rev res1 => -[Lo Mo [Ro Po] [Bo [So Do]] [Eo1 Eo2]].
have szo : size out = (size ls).+1.
  by move/(f_equal size): Mo; rewrite /modes !size_map size_rcons.
rewrite /= rev_cons -/out.
have Mrc : modes (rcons ls C2) = modes (rcons ls C) by rewrite /modes !map_rcons E1e.
have oU' b c' : (b < minn r0 (n * r'))%N -> (c' < minn r0 (n * r'))%N ->
  \sum_(0 <= i < r0) get U [:: i; b] * get U [:: i; c'] = (b == c')%:R.
  by move=> hb hc; apply: oU; [move: hb | move: hc]; rewrite leq_min => /andP[].
have oV' b c' : (b < minn r0 (n * r'))%N -> (c' < minn r0 (n * r'))%N ->
  \sum_(0 <= i < n * r') get Vt [:: b; i] * get Vt [:: c'; i] = (b == c')%:R.
  by move=> hb hc; apply: oV; [move: hb | move: hc]; rewrite leq_min => /andP[].
pose L' i l := chain (rcons ls C) i 0 l.
pose H i t := chain (rcons ls C2) i 0 t.
pose H' i t := chain out i 0 t.
have iL : isom (all_idx (modes (rcons ls C))) r0 L' by apply: left_isom.
have iV := isomV oV' rk.
have cross t l : (t < r)%N -> (l < r0)%N ->
  \sum_(0 <= p < n * r') get Vt [:: t; p] * tail U Sv Vt r0 (n * r') r l p = 0.
  by move=> ht _; apply: tail0V.
have HE i t : inb (modes (rcons ls C)) i -> (t < r)%N -> H i t = \sum_(0 <= l < r0) L' i l * get us [:: l; t].
  by move=> hi ht; rewrite /H /L' /C2 (chain_us us Lq wC sC hi ht).
have GE i k b : inb (modes (rcons ls C)) i -> (k < n)%N -> (b < r')%N ->
  chain (rcons (rcons ls C) C1) (rcons i k) 0 b =
  \sum_(0 <= t < r) H i t * get Vt [:: t; (k * r' + b)%N]
  + \sum_(0 <= l < r0) L' i l * tail U Sv Vt r0 (n * r') r l (k * r' + b)%N.
  move=> hi hk hb; have si : size i = size (rcons ls C) by rewrite (inb_size hi) size_map.
  rewrite (chain_rcons _ L si (ltn0Sn 0)) ?D2e //.
  have pl : (k * r' + b < n * r')%N := flat_lt hk hb.
  transitivity (\sum_(0 <= l < r0) (\sum_(0 <= t < r) L' i l * (get us [:: l; t] * get Vt [:: t; (k * r' + b)%N])
     + L' i l * tail U Sv Vt r0 (n * r') r l (k * r' + b)%N)).
    apply: eq_big_nat => l hl; rewrite -gM (tailE vals rk) // mulrDr big_distrr /=; congr (_ + _).
    by apply: eq_big_nat => t ht; rewrite gus.
  rewrite big_split /= exchange_big /=; congr (_ + _); apply: eq_big_nat => t ht.
  rewrite HE // big_distrl /=; by apply: eq_bigr => l _; rewrite mulrA.
have GE' i k b : inb (modes (rcons ls C)) i -> (k < n)%N -> (b < r')%N ->
  chain (rcons out V) (rcons i k) 0 b = \sum_(0 <= t < r) H' i t * get Vt [:: t; (k * r' + b)%N].
  move=> hi hk hb; have si : size i = size out by rewrite (inb_size hi) size_map size_rcons szo.
  rewrite (chain_rcons _ Lo si (ltn0Sn 0)) ?F2e //; apply: eq_big_nat => t ht.
  by rewrite gV gV' // flat_lt.
have expand (f : seq nat -> nat -> R) (g : seq nat -> nat -> R) :
  (forall i k b, inb (modes (rcons ls C)) i -> (k < n)%N -> (b < r')%N -> f (rcons i k) b = g i (k * r' + b)%N) ->
  sqsum (rcons (rcons ls C) C1) r' f = \sum_(i <- all_idx (modes (rcons ls C))) \sum_(0 <= p < n * r') g i p ^+ 2.
  move=> fg; rewrite /sqsum {1}/modes map_rcons sum_idx_rcons -/(modes _) sum_idxE.
  apply: eq_big_seq => i /mem_all_idx hi; rewrite sum_nat_mul; apply: eq_big_nat => k hk.
  by apply: eq_big_nat => b hb; rewrite fg.
have idx f g : (forall i t, inb (modes (rcons ls C)) i -> (t < r)%N -> f i t = g i t) ->
   sqsum (rcons ls C2) r f = \sum_(i <- all_idx (modes (rcons ls C))) \sum_(0 <= t < r) g i t ^+ 2.
  move=> fg; rewrite /sqsum Mrc sum_idxE; apply: eq_big_seq => i /mem_all_idx hi.
  by apply: eq_big_nat => t ht; rewrite fg.
have tsq := tail_sq oU' oV' vals rk.
have sumsq : sum_sq (drop r (ndata Sv) :: res2) = \sum_(s <- drop r (ndata Sv)) s ^+ 2 + sum_sq res2.
  by rewrite /sum_sq big_cons.
have N1 : sqsum (rcons (rcons ls C) C1) r' (fun i b => chain (rcons (rcons ls C) C1) i 0 b - chain (rcons out V) i 0 b) = sum_sq (drop r (ndata Sv) :: res2).
  rewrite (expand _ (fun i p => \sum_(0 <= t < r) (H i t - H' i t) * get Vt [:: t; p]
    + \sum_(0 <= l < r0) L' i l * tail U Sv Vt r0 (n * r') r l p)); last first.
    move=> i k b hi hk hb; rewrite GE // GE' // addrAC; congr (_ + _).
    by rewrite -sumrB; apply: eq_bigr => t _; rewrite mulrBl.
  rewrite (pyth (fun i t => H i t - H' i t) iL iV cross) tsq sumsq addrC; congr (_ + _).
  by rewrite -Eo1 (idx _ (fun i t => H i t - H' i t)).
have NH : sqsum (rcons (rcons ls C) C1) r' (fun i b => chain (rcons (rcons ls C) C1) i 0 b)
   = sqsum (rcons ls C2) r H + \sum_(s <- drop r (ndata Sv)) s ^+ 2.
  rewrite (expand _ (fun i p => \sum_(0 <= t < r) H i t * get Vt [:: t; p]
    + \sum_(0 <= l < r0) L' i l * tail U Sv Vt r0 (n * r') r l p)); last exact: GE.
  by rewrite (pyth H iL iV cross) tsq -(idx H).
have N2 : sqsum (rcons (rcons ls C) C1) r' (fun i b => chain (rcons (rcons ls C) C1) i 0 b)
   = sqsum (rcons (rcons ls C) C1) r' (fun i b => chain (rcons out V) i 0 b) + sum_sq (drop r (ndata Sv) :: res2).
  rewrite NH sumsq (expand _ (fun i p => \sum_(0 <= t < r) H' i t * get Vt [:: t; p])); last exact: GE'.
  rewrite Eo2 [LHS]addrC [RHS]addrCA; congr (_ + (_ + _)).
  rewrite (idx _ H') //; apply: eq_bigr => i _.
  rewrite -(isom_sq (H' i) iV); apply: eq_bigr => p _; congr (_ ^+ 2).
  by apply: eq_bigr => t _; rewrite mulrC.
have N3 : sqsum (rcons ls C2) r H = \sum_(0 <= t < r) get Sv [:: t] ^+ 2.
  rewrite (idx H (fun i t => \sum_(0 <= l < r0) L' i l * get us [:: l; t])) //.
  rewrite exch_seq; apply: eq_big_nat => t ht; rewrite (isom_sq _ iL).
  transitivity (get Sv [:: t] ^+ 2 * \sum_(0 <= l < r0) get U [:: l; t] * get U [:: l; t]).
    rewrite big_distrr /=; apply: eq_big_nat => l hl; rewrite gus // exprMn mulrC expr2.
    by rewrite [get U _ ^+ 2]expr2.
  by rewrite oU' ?eqxx ?mulr1 //; exact: leq_trans ht rk.
have dsq0 : 0 <= \sum_(s <- drop r (ndata Sv)) s ^+ 2 by apply: sumr_ge0 => s _; exact: sqr_ge0.
have NHle : sqsum (rcons ls C2) r H <=
   sqsum (rcons (rcons ls C) C1) r' (fun i b => chain (rcons (rcons ls C) C1) i 0 b).
  by rewrite NH ler_addl.
have NS : get Sv [:: 0%N] ^+ 2 <=
   sqsum (rcons (rcons ls C) C1) r' (fun i b => chain (rcons (rcons ls C) C1) i 0 b).
  apply: le_trans NHle; rewrite N3 (big_nat_recl' _ r_p) ler_addl.
  by apply: sumr_ge0 => s _; exact: sqr_ge0.
have cap_ok k : (k <= size ls)%N -> cap (rcons ls C) (rcons out V) k = if (k < size ls)%N then cap ls out k else minn r0 (n * r').
  move=> hk; rewrite /cap !nth_rcons szo !ltnS; case: (ltnP k (size ls)) => hk' //.
  have -> : k = size ls by apply/eqP; rewrite eqn_leq hk hk'.
  by rewrite !eqxx C2e F1e F2e.
split.
- by apply: (links_rconsI Lo wV); rewrite F1e.
- by rewrite /modes !map_rcons F1e -/(modes _) Mo Mrc /modes map_rcons.
- split; last by rewrite /pos_tt all_rcons F1e F2e np rp.
  move=> k; rewrite size_rcons nth_rcons ltnS => /andP[k0 hk].
  case: (ltnP k (size out)) => hk'; first by apply: Ro; rewrite k0.
  have -> : k == size out by rewrite eqn_leq hk hk'.
  apply: (@orows_right_orth _ (slice_ax 0 0 r Vt) _ r n r') => //.
  move=> b c' hb hc; rewrite -(oV' b c'); try exact: leq_trans rk.
  by apply: eq_big_nat => p hp; rewrite !gV'.
- split; last first.
    split; first by rewrite /= So size_rcons.
    move=> k; rewrite size_rcons ltnS => hk; rewrite (cap_ok k hk) rev_cons !nth_rcons size_rev So szo ltnS hk.
    case: (ltnP k (size ls)) => hk'; first exact: disc_ok_le NHle (Do k hk').
    have -> : k = size ls by apply/eqP; rewrite eqn_leq hk hk'.
    rewrite eqxx (links_last Lo szo) /r ec; case: vals => _ v1 v2 _.
    by apply: (@disc_okI _ _ _ (minn r0 (n * r'))).
  move=> k; rewrite size_rcons ltnS => hk; rewrite (cap_ok k hk).
  rewrite !nth_rcons szo ltnS hk; case: (ltnP k (size ls)) => hk'; first exact: Bo.
  have -> : k = size ls by apply/eqP; rewrite eqn_leq hk hk'.
  rewrite (links_last Lo szo) rk; split=> //.
  by rewrite /r geq_max leq_maxl /= leq_max geq_minr orbT.
by split.
Qed.
End Round.

Section RoundTop.
Variable R : rcfType.
Notation arr := (nd R).
Implicit Types (C : arr) (cs ls out : seq arr).
Variable qr : arr -> res (arr * arr).
Variable svd : arr -> res (arr * arr * arr).
Hypothesis qrP : qr_contract qr.
Hypothesis svdP : svd_contract svd.

Lemma links_nth a cs b k : links a cs b -> (k.+1 < size cs)%N ->
  dim (nth (Nd [::] [::]) cs k.+1) 0 = dim (nth (Nd [::] [::]) cs k) 2.
Proof.
elim: cs a k => [|C cs IH] a k //= /and3P[_ _ L]; rewrite ltnS.
case: k => [|k] hk /=; last exact: IH L hk.
by case: cs L hk {IH} => [|C' cs] //= /and3P[_ /eqP sC' _] _; rewrite {1}/dim sC'.
Qed.

Lemma tt_rank_nth a cs b k : links a cs b -> (k.+1 < size cs)%N ->
  nth 0%N (tt_rank cs) k = dim (nth (Nd [::] [::]) cs k) 2.
Proof.
move=> L hk; rewrite -(links_nth L hk) /tt_rank.
rewrite (nth_map (Nd [::] [::])) ?size_behead ?nth_behead //.
by case: (size cs) hk.
Qed.

Lemma size_tt_rank cs : size (tt_rank cs) = (size cs).-1.
Proof. by rewrite size_map size_behead. Qed.

Lemma below_trans r s t : below r s -> below s t -> below r t.
Proof. by move=> [E1 H1] [E2 H2]; split=> [|i]; [rewrite E1|apply: leq_trans (H2 i)]. Qed.

Lemma all2_below (s t : seq nat) : all2 leq s t -> below s t.
Proof.
elim: s t => [|x s IH] [|y t] //= /andP[xy /IH[E H]]; split; first by rewrite /= E.
by case.
Qed.

Definition tcap cs (out : seq arr) (k : nat) : nat := minn (nth 0%N (tt_rank cs) k)
  (dim (nth (Nd [::] [::]) out k.+1) 1 * dim (nth (Nd [::] [::]) out k.+1) 2)%N.
Definition round_post_tt (eps : R) cs (rk : seq nat) (r : seq arr * seq (seq R)) : Prop :=
  [/\ wf_tt r.1, tshape (TT r.1) = tshape (TT cs),
      all_but_first (fun C => right_orth C) r.1 /\ pos_tt r.1,
      [/\ below (tt_rank r.1) (tt_rank cs),
         (forall k, (nth 0%N (tt_rank r.1) k <= maxn 1 (nth 0%N rk k))%N),
         size r.2 = (size cs).-1 /\ (forall k, (k < (size cs).-1)%N -> (nth 0%N (tt_rank r.1) k <= tcap cs r.1 k)%N) &
         forall k, (k < (size cs).-1)%N -> disc_ok eps (tcap cs r.1 k) (nth 0%N (tt_rank r.1) k)
           (nth 0%N rk k) (sqnorm_of (TT cs)) (nth [::] r.2 k)] &
      sqdist (TT cs) (TT r.1) = sum_sq r.2
      /\ sqnorm_of (TT cs) = sqnorm_of (TT r.1) + sum_sq r.2].

Lemma sqdist_same cs cs' out : tshape (TT cs) = tshape (TT cs') ->
  (forall i, inb (tshape (TT cs)) i -> den (TT cs') i = den (TT cs) i) ->
  sqdist (TT cs) (TT out) = sqdist (TT cs') (TT out) :> R.
Proof. by move=> E H; rewrite /sqdist E; apply: eq_sum_idx => i hi; rewrite H ?E. Qed.
Lemma sqnorm_same (X Y : tensor R) : same_tensor X Y -> sqnorm_of X = sqnorm_of Y.
Proof. by move=> [E H]; rewrite /sqnorm_of -E; apply: eq_sum_idx => i hi; rewrite H. Qed.

Lemma process_size m shape rk b : all (fun n => (0 < n)%N) shape ->
  process_tt_rank m shape b = Ok rk -> size rk = (size shape).-1 /\ (0 < size shape)%N.
Proof.
move=> sp; rewrite /process_tt_rank; case: ifP => // /negbT; rewrite negb_or -lt0n.
case/andP=> h0; rewrite negbK => /eqP E [<-]; split=> //; case: b => //.
by have [-> _] := trim_le sp h0 E.
Qed.

Lemma pos_shape cs : pos_tt cs -> all (fun n => (0 < n)%N) (tshape (TT cs : tensor R)).
Proof. by rewrite /pos_tt /= all_map; apply: sub_all => C /andP[]. Qed.

Lemma sqsum1 ls f : sqsum ls 1 f = sum_idx (modes ls) (fun i => f i 0%N ^+ 2 : R).
Proof. by apply: eq_sum_idx => i _; rewrite big_nat1. Qed.

Lemma round_coreP cs eps rk : wf_tt cs -> pos_tt cs -> all_but_last (fun C => left_orth C) cs ->
  size rk = (size cs).-1 ->
  or_linalg (do nc <- round_loop_g svd eps rk None (rev (zip (iota 0 (size cs)) cs));
             Ok (rev nc.1, rev nc.2)) (round_post_tt eps cs rk).
Proof.
case/lastP: cs => [|ls C] // /andP[_ L] P A srk; rewrite size_rcons /= in srk.
have [r0 [Ll wC sC]] := links_rcons L; have [d0 d1 d2] := dim3 sC.
have Pls : pos_tt ls /\ (0 < dim C 1)%N.
  by move: P; rewrite /pos_tt all_rcons => /andP[/andP[-> _] ->].
rewrite round_loopN.
have sz : (size ls <= size rk)%N by rewrite srk.
apply: (or_bind (round_bodyP svdP eps Ll (abl_rcons A) Pls.1 wC sC Pls.2 (ltn0Sn 0) sz)).
case=> res1 res2 [Lo Mo [Ro Po] [Bo [So Do]] [E1 E2]]; move: Lo Mo Ro Po Bo Do E1 E2 => /=.
set out := rev res1 => Lo Mo Ro Po Bo Do E1 E2.
have szo : size out = (size ls).+1.
  by move/(f_equal size): Mo; rewrite /modes !size_map size_rcons.
have rE : sum_sq (rev res2) = sum_sq res2.
  by rewrite /sum_sq; elim: (res2) => [|x l IH] //; rewrite rev_cons -cats1 big_cat big_cons big_nil /= IH addr0 addrC big_cons.
split=> //=.
- by rewrite /wf_tt Lo andbT; case: (out) szo.
- have B1 k : (k < size ls)%N -> nth 0%N (tt_rank out) k = dim (nth (Nd [::] [::]) out k) 2.
    by move=> hk; apply: (tt_rank_nth Lo); rewrite szo.
  have sr1 : size (tt_rank out) = size ls by rewrite size_tt_rank szo.
  have Do' k : (k < (size (rcons ls C)).-1)%N -> disc_ok eps (tcap (rcons ls C) out k)
     (nth 0%N (tt_rank out) k) (nth 0%N rk k) (sqnorm_of (TT (rcons ls C))) (nth [::] (rev res2) k).
    rewrite size_rcons /= => hk; have := Do k hk.
    rewrite B1 // /tcap (tt_rank_nth L) ?size_rcons // nth_rcons hk.
    by congr disc_ok; rewrite /sqnorm_of sqsum1.
  split=> //.
  - split; first by rewrite !size_tt_rank szo size_rcons.
    move=> k; case: (ltnP k (size ls)) => hk; last by rewrite nth_default ?sr1.
    rewrite B1 // (tt_rank_nth L) ?size_rcons // nth_rcons hk.
    by have [_] := Bo k hk; rewrite /cap leq_min => /andP[].
  - move=> k; case: (ltnP k (size ls)) => hk; last by rewrite nth_default ?sr1.
    by rewrite B1 //; have [-> _] := Bo k hk.
  - split; first by rewrite size_rev So size_rcons.
    by move=> k; rewrite size_rcons /= => hk; rewrite B1 // /tcap (tt_rank_nth L) ?size_rcons // nth_rcons hk; have [_] := Bo k hk.
rewrite rE -E1; split; first by rewrite sqsum1.
by move: E2; rewrite !sqsum1 -E1 /sqnorm_of [tshape (TT out)]/= -!/(modes _) Mo !sqsum1.
Qed.

Lemma round_post_same eps cs tt1 rk r : orthogonalized cs tt1 -> round_post_tt eps tt1 rk r -> round_post_tt eps cs rk r.
Proof.
move=> [w1 S1 R1 [A1 P1] G1] [H1 H2 H3 [H4 H5 [H6 H10] H9] [H7 H8]].
have sz : size cs = size tt1 by move/(f_equal size): S1; rewrite /= !size_map => ->.
have NE : sqnorm_of (TT cs) = sqnorm_of (TT tt1).
  by apply: sqnorm_same; split=> // i hi; rewrite G1.
have BE : below (tt_rank tt1) (tt_rank cs) by apply: all2_below.
split=> //; first by rewrite H2.
- have CE k : (tcap tt1 r.1 k <= tcap cs r.1 k)%N.
    by rewrite /tcap leq_min geq_minr andbT; apply: leq_trans (geq_minl _ _) _; case: BE.
  split=> //; rewrite ?sz //; first exact: below_trans H4 BE.
    by split=> // k hk; apply: leq_trans (H10 k hk) (CE k).
  move=> k hk; rewrite NE; have [D1 D2 D3] := H9 k hk; split=> //.
  by apply: leq_trans D1 _; apply: leq_sub2r.
by split; [rewrite (@sqdist_same cs tt1) // S1 | rewrite NE].
Qed.

Lemma tt_round_gP cs eps m (o : bool) :
  wf_tt cs -> pos_tt cs -> (o -> all_but_last (fun C => left_orth C) cs) ->
  (if m is Some m' then exists rk, process_tt_rank m' (tshape (TT cs : tensor R)) true = Ok rk else True) ->
  or_linalg (tt_round_g qr svd cs eps m o) (fun r => exists tt1 rk,
    [/\ (if o then tt1 = cs else orthogonalized cs tt1),
        process_tt_rank (if m is Some m' then m' else RTuple (tt_rank tt1)) (tshape (TT cs : tensor R)) true = Ok rk,
        round_post_tt (if eps is Some e then e else 0) cs rk r &
        (do nc <- round_loop_g svd (if eps is Some e then e else 0) rk None (rev (zip (iota 0 (size tt1)) tt1));
             Ok (rev nc.1, rev nc.2)) = Ok r]).
Proof.
move=> w p oP mP; rewrite /tt_round_g.
have main tt1 : wf_tt tt1 -> pos_tt tt1 -> all_but_last (fun C => left_orth C) tt1 ->
   tshape (TT tt1) = tshape (TT cs : tensor R) -> (size tt1 = size cs) ->
   (if o then tt1 = cs else orthogonalized cs tt1) ->
   or_linalg (do mr <- process_tt_rank (if m is Some m' then m' else RTuple (tt_rank tt1)) (tshape (TT tt1)) true;
     do nc <- round_loop_g svd (if eps is Some e then e else 0) mr None (rev (zip (iota 0 (size tt1)) tt1));
     Ok (rev nc.1, rev nc.2)) (fun r => exists tt1 rk,
    [/\ (if o then tt1 = cs else orthogonalized cs tt1),
        process_tt_rank (if m is Some m' then m' else RTuple (tt_rank tt1)) (tshape (TT cs : tensor R)) true = Ok rk,
        round_post_tt (if eps is Some e then e else 0) cs rk r &
        (do nc <- round_loop_g svd (if eps is Some e then e else 0) rk None (rev (zip (iota 0 (size tt1)) tt1));
             Ok (rev nc.1, rev nc.2)) = Ok r]).
  move=> w1 p1 A1 S1 sz o1; rewrite S1.
  have [rk E] : exists rk, process_tt_rank (if m is Some m' then m' else RTuple (tt_rank tt1))
      (tshape (TT cs : tensor R)) true = Ok rk.
    case: (m) mP => [m'|] // _; rewrite process_tuple /=; last first.
      by rewrite size_map; case: (cs) w.
    by rewrite size_tt_rank sz size_map eqxx; eexists.
  rewrite E [bind (Ok _) _]/=.
  have [srk _] := process_size (pos_shape p) E.
  have srk' : size rk = (size tt1).-1 by rewrite srk /= size_map sz.
  have H := round_coreP (if eps is Some e then e else 0) w1 p1 A1 srk'.
  case F : (do nc <- _; Ok _) H => [r|e] //= H; exists tt1, rk; split=> //.
  by case: (o) o1 H => [->|o1 H] //; exact: round_post_same o1 H.
case: o oP main => oP main.
  by apply: main => //; exact: oP.
apply: (or_bind (orthogonalizeP qrP w p)) => tt1 O1; move: (O1) => [w1 S1 _ [A1 P1] _].
apply: main => //; last by move/(f_equal size): S1; rewrite /= !size_map.
by move=> k /A1[].
Qed.
End RoundTop.
