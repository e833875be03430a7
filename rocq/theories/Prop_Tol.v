(* C14 continued: what the tolerance of TensorTrain.round guarantees.
   [largest cs k]: the largest rank a train of this shape and these ranks can need at bond k,
   min(rank k, n_0 .. n_k, n_(k+1) .. n_(d-1)). *)
From Coq Require Import String Ascii NArith.
From mathcomp Require Import all_ssreflect all_algebra.
From mathcomp Require Import zify.
From Verif Require Import Py Nd NdThy Ein Utils Tensor Spec LinSpec ChainThy TensorThy2 TensorThy4 GatherThy DotThy TrimThy.
From Verif Require Import TensorNum SweepThy NormThy RoundSpec RoundThy ErrThy RoundThy2 TolThy.
From Verif Require Import RecSpec SvSpec SvThy PrecThy LinExist Prop_LinEx.
Set Implicit Arguments. Unset Strict Implicit. Unset Printing Implicit Defensive.
Import GRing.Theory Num.Theory Order.TTheory.
Local Open Scope ring_scope.

Definition largest (R : rcfType) (cs : seq (nd R)) (k : nat) : nat :=
  minn (nth 0%N (tt_rank cs) k)
    (minn (prods (take k.+1 (tshape (TT cs)))) (prods (drop k.+1 (tshape (TT cs))))).

(* the request, if there is one, is a valid rank and at least [largest] at every bond *)
Definition ample (R : rcfType) (cs : seq (nd R)) (m : option ttrank) : Prop :=
  if m is Some m' then exists2 rq, process_tt_rank m' (tshape (TT cs)) false = Ok rq &
     forall k, (k < (size cs).-1)%N -> (largest cs k <= nth 0 rq k)%N else True.

(* With no or an ample rank request, the squared error of round(eps) is at most
   eps^2 ||X||^2 times the total reduction of the ranks below [largest] *)
Theorem C14_tolerance (R : rcfType) qr svd (cs : seq (nd R)) (eps : R) (m : option ttrank) (o : bool) :
  qr_contract qr -> svd_contract svd -> round_args cs m o -> ample cs m -> 0 <= eps ->
  or_linalg (tt_round qr svd cs (Some eps) m o) (fun out =>
    exists a b, [/\ to_numpy (TT cs) = Ok a, to_numpy (TT out) = Ok b,
      forall k, (k < (size cs).-1)%N -> (0 < nth 0 (tt_rank out) k <= largest cs k)%N &
      sum_idx (nshape a) (fun i => (get a i - get b i) ^+ 2)
      <= eps ^+ 2 * sum_idx (nshape a) (fun i => get a i ^+ 2)
         * (\sum_(0 <= k < (size cs).-1) (largest cs k - nth 0 (tt_rank out) k)%N)%:R]).
Proof.
move=> qrP svdP ra am e0; rewrite round_erase; have := tolP qrP svdP ra am e0; case: ra => w _ _ _.
case: (tt_round_g _ _ _ _ _ _) => [r|e] //= [w' S' H1 H2].
have [a Ea _] := to_numpyE (w : wf (TT cs)); have [b Eb _] := to_numpyE (w' : wf (TT r.1)).
move: H2; rewrite (sqdist_obs (w : wf (TT cs)) (w' : wf (TT r.1)) _ Ea Eb) // (sqnorm_obs (w : wf (TT cs)) Ea) => B.
by exists a, b.
Qed.

(* so the relative error is at most eps * sqrt(sum_k (largest k - 1)) *)
Theorem C14_tolerance_relative (R : rcfType) qr svd (cs : seq (nd R)) (eps : R) (m : option ttrank) (o : bool) :
  qr_contract qr -> svd_contract svd -> round_args cs m o -> ample cs m -> 0 <= eps ->
  or_linalg (tt_round qr svd cs (Some eps) m o) (fun out =>
    exists a b, [/\ to_numpy (TT cs) = Ok a, to_numpy (TT out) = Ok b &
      Num.sqrt (sum_idx (nshape a) (fun i => (get a i - get b i) ^+ 2))
      <= eps * Num.sqrt (\sum_(0 <= k < (size cs).-1) (largest cs k).-1)%:R
         * Num.sqrt (sum_idx (nshape a) (fun i => get a i ^+ 2))]).
Proof.
move=> qrP svdP ra am e0; have := C14_tolerance qrP svdP ra am e0.
case: (tt_round _ _ _ _ _ _) => [out|e] //= [a [b [Ea Eb H1 H2]]]; exists a, b; split=> //.
have N0 : 0 <= sum_idx (nshape a) (fun i => get a i ^+ 2) by apply: sum_idx_ge0 => i; exact: sqr_ge0.
rewrite -{1}(ger0_norm e0) -sqrtr_sqr -!sqrtrM ?mulr_ge0 ?sqr_ge0 ?ler0n //; apply: ler_wsqrtr.
apply: le_trans H2 _; rewrite mulrAC ler_wpmul2r // ler_wpmul2l ?sqr_ge0 // ler_nat.
rewrite big_nat [X in (_ <= X)%N]big_nat; apply: leq_sum => k /andP[_ hk].
by have /andP[h _] := H1 k hk; clear -h; lia.
Qed.

(* eps is not a bound of the relative error: for the 3 x 3 matrix diag(1, 1/2, 1/2) as a train with
   a left-orthogonal first core and eps = 1/2, every SVD routine drops both values 1/2, and the
   squared error 1/2 exceeds eps^2 ||X||^2 = 3/8.  (The factor of C14_tolerance is 2 here: sharp up to
   the norm of what is kept.) *)
Section Sharp.
Variable R : rcfType.
Notation arr := (nd R).
Notation h2 := (2%:R^-1 : R).
Definition sharp : seq arr := [:: Nd [:: 1; 3; 3]%N [:: 1; 0; 0; 0; 1; 0; 0; 0; 1]; Nd [:: 3; 3; 1]%N [:: 1; 0; 0; 0; h2; 0; 0; 0; h2]].
Definition sharpM : arr := Nd [:: 3; 3]%N [:: 1; 0; 0; 0; h2; 0; 0; 0; h2].
Let h20 : 0 < h2. Proof. by rewrite invr_gt0 ltr0n. Qed.
Let h21 : h2 < 1. Proof. by rewrite invf_lt1 ?ltr1n ?ltr0n. Qed.

Lemma sharp_args : round_args sharp None true.
Proof.
split=> // _ [|[|k]] //= _ [|[|[|b]]] [|[|[|c]]] //= _ _; rewrite ?(big_nat_recl _ _ _ (leq0n _)) /get /=;
  by rewrite !big_geq // ?mul0r ?mulr0 ?mulr1 ?addr0 ?add0r.
Qed.

Lemma sharp_sv : singular_values (amat sharpM 3 3) [:: 1; h2; h2].
Proof.
have h0 := ltW h20; have h1 := ltW h21.
split; [by case=> [|[|[|t]]] //= _; rewrite ?ler01|by move=> t u /andP[]; case: u => [|[|[|u]]] //; case: t => [|[|[|t]]] //=|].
exists 1%:M, 1%:M; split; rewrite ?trmx1 ?mul1mx // mulmx1.
apply/matrixP => i j; rewrite !mxE; case: i => -[|[|[|i]]] hi //; case: j => -[|[|[|j]]] hj //=; rewrite /get /= ?mulr1n ?mulr0n //.
Qed.

Lemma loop_step1 svd eps mr C rest : round_loop_g svd eps mr None ((1%N, C) :: rest) =
  do Cm <- reshape C [:: dim C 0; (dim C 1 * dim C 2)%N];
  do usv <- svd Cm;
  let: (U, Sv, Vt) := usv in
  do k <- count_above Sv eps;
  do m <- pyget mr 0;
  let r := maxn 1 (minn k m) in
  do us' <- matmul (slice_ax 1 0 r U) (diag (slice_ax 0 0 r Sv));
  do V <- reshape (slice_ax 0 0 r Vt) [:: r; dim C 1; dim C 2];
  do rest' <- round_loop_g svd eps mr (Some us') rest;
  Ok (V :: rest'.1, drop r (ndata Sv) :: rest'.2) :> res (seq arr * seq (seq R)).
Proof. by []. Qed.
Lemma loop_step0 svd eps mr us C : round_loop_g svd eps mr (Some us) [:: (0%N, C)] =
  do C1 <- einsum "ijk,kl->ijl" [:: C; us]; Ok ([:: C1], [::]) :> res (seq arr * seq (seq R)).
Proof. by []. Qed.

Lemma sharp_drop qr svd r : svd_contract svd -> tt_round_g qr svd sharp (Some h2) None true = Ok r -> r.2 = [:: [:: h2; h2]].
Proof.
move=> svdP; rewrite /tt_round_g; cbn [bind].
set mr := process_tt_rank _ _ _; have {mr}-> : mr = Ok [:: 3]%N by [].
cbn [bind]; set l := rev _; have {l}-> : l = [:: (1%N, nth (Nd [::] [::]) sharp 1); (0%N, nth (Nd [::] [::]) sharp 0)] by [].
rewrite loop_step1; set Cm := reshape _ _; have {Cm}-> : Cm = Ok sharpM by [].
cbn [bind]; have mM : is_mat sharpM 3 3 by [].
have := svdP _ _ _ mM; case: (svd sharpM) => [[[U Sv] Vt]|e] //; cbn [or_linalg bind].
move=> [mU mV oU oV [[wS sS] S0 Sl e]].
have sz : size (ndata Sv) = 3%N by move: wS; rewrite /nwf sS /= => /eqP.
have gS t : get Sv [:: t] = nth 0 (ndata Sv) t by rewrite /get sS /= muln1 addn0.
have sv : singular_values (amat sharpM 3 3) (ndata Sv).
  split; first by move=> t; rewrite sz -gS; exact: S0.
    by move=> t u; rewrite sz -!gS; exact: Sl.
  exists (amat U 3 (size (ndata Sv))), (amat Vt (size (ndata Sv)) 3); rewrite sz; split.
  - exact: ocols_mx.
  - apply/matrixP => i j; rewrite !mxE -(oV i j) // big_mkord; apply: eq_bigr => t _; by rewrite !mxE.
  apply/matrixP => i j; rewrite !mxE e // big_mkord; apply: eq_bigr => t _.
  by rewrite mul_mx_diag !mxE gS.
have {sv}dS : ndata Sv = [:: 1; h2; h2].
  have u := sv_unique sv sharp_sv; apply: (@eq_from_nth _ 0) => // t _; exact: u.
have -> : count_above Sv h2 = Ok 1%N.
  by rewrite /count_above dS /= mul1r h21 ltxx.
have -> : pyget [:: 3%N] 0 = Ok 3%N by [].
cbn [bind]; set m1 := @matmul _ _ _; case: m1 => [us|e'] //; cbn [bind].
set m2 := @reshape _ _ _; case: m2 => [V|e'] //; cbn [bind]; rewrite loop_step0; set m3 := @einsum _ _ _; case: m3 => [C1|e'] //; cbn [bind].
by move=> [<-]; rewrite dS.
Qed.

Theorem C14_eps_not_relative_error qr svd : qr_contract qr -> svd_contract svd ->
  or_linalg (tt_round qr svd sharp (Some h2) None true) (fun out =>
    exists a b, [/\ to_numpy (TT sharp) = Ok a, to_numpy (TT out) = Ok b, sum_idx (nshape a) (fun i => get a i ^+ 2) = 1 + h2 &
      h2 ^+ 2 * sum_idx (nshape a) (fun i => get a i ^+ 2) < sum_idx (nshape a) (fun i => (get a i - get b i) ^+ 2)]).
Proof.
move=> qrP svdP; rewrite round_erase; have [w p oP mP] := sharp_args.
have := @tt_round_gP _ qr svd qrP svdP _ (Some h2) None true w p oP mP; have := @sharp_drop qr svd _ svdP.
case: (tt_round_g _ _ _ _ _ _) => [r|e] // /(_ _ erefl) dr; cbn [or_linalg bind] => -[tt1 [rk [_ _ [w' S' _ _ [D N]] _]]].
have [a Ea _] := to_numpyE (w : wf (TT sharp)); have [b Eb _] := to_numpyE (w' : wf (TT r.1)).
exists a, b; rewrite -(sqdist_obs (w : wf (TT sharp)) (w' : wf (TT r.1)) _ Ea Eb) // -(sqnorm_obs (w : wf (TT sharp)) Ea) D dr.
have hh : h2 + h2 = 1 by rewrite -mulr2n -(mulr_natl h2 2) divff // pnatr_eq0.
have n1 : sqnorm_of (TT sharp) = 1 + h2.
  rewrite /sqnorm_of (_ : tshape (TT sharp) = [:: 3; 3]%N) // /sum_idx.
  have dE j k : (j < 3)%N -> (k < 3)%N -> den (TT sharp) [:: j; k] = get sharpM [:: j; k].
    case: j => [|[|[|j]]] // _; case: k => [|[|[|k]]] // _; rewrite /= /dim /= !(big_nat_recl _ _ _ (leq0n _)) /get /= !big_geq //;
    by rewrite ?(mul0r, mul1r, mulr0, mulr1, addr0, add0r).
  have hh2 : h2 ^+ 2 + h2 ^+ 2 = h2 by rewrite expr2 -mulrDl hh mul1r.
  rewrite !(big_nat_recl _ _ _ (leq0n _)) !big_geq // !dE // /get /= !addr0 !expr0n /= !add0r !addr0 !expr1n.
  by rewrite hh2.
split=> //; rewrite n1 /sum_sq !big_cons !big_nil !addr0 -mulrDl hh mul1r.
rewrite expr2 -mulrA -[X in _ < X]mulr1 ltr_pmul2l // mulrDr mulr1 -{4}hh ltr_add2l.
by rewrite -[X in _ < X]mulr1 ltr_pmul2l.
Qed.
End Sharp.

(* the hypotheses are met by the 2 x 3 x 2 train of ranks (2, 3) of Prop_LinEx.v, without a request, and
   with the request 4 *)
Example C14_tolerance_nonvacuous (R : rcfType) : [/\ qr_contract (@qr0 R), svd_contract (@svd0 R),
  round_args (ex_cs R) None false, round_args (ex_cs R) (Some (RInt 4)) false &
  ample (ex_cs R) (Some (RInt 4)) /\ [seq largest (ex_cs R) k | k <- [:: 0; 1]%N] = [:: 2; 2]%N].
Proof.
split=> //; [by case: (@qr0P R)|exact: svd0P| |].
  by split=> //; exists [:: 2; 2]%N.
split=> //; exists [:: 4; 4]%N => //.
by case=> [|[|k]].
Qed.

Print Assumptions C14_tolerance.
Print Assumptions C14_tolerance_relative.
Print Assumptions C14_eps_not_relative_error.
