(* Properties C06 (division), C10, C12, C13, C14, C15: norms, orthogonalization, rounding
   and errors.  [qr] and [svd] stand for numpy.linalg.qr / svd; only the contracts of
   LinSpec.v are assumed of them (they may also raise LinAlgError).  LinExist.v shows that
   total functions with these contracts exist over every real closed field. *)
From Coq Require Import String Ascii.
From mathcomp Require Import all_ssreflect all_algebra.
From Verif Require Import Py Nd NdThy Utils Tensor Spec LinSpec TensorThy2 TensorThy4 GatherThy DotThy TrimThy.
From Verif Require Import TensorNum SweepThy NormThy RoundSpec RoundThy ErrThy RoundThy2.
Set Implicit Arguments. Unset Strict Implicit. Unset Printing Implicit Defensive.
Import GRing.Theory Num.Theory Order.TTheory.
Local Open Scope ring_scope.

(* ---- C06: division by a scalar ---- *)
Theorem C06_div (R : rcfType) (X : tensor R) (c : R) : wf X -> c != 0 -> exists Y a b,
  [/\ tdiv X c = Ok Y, wf Y, to_numpy X = Ok a & to_numpy Y = Ok b] /\
  [/\ tshape Y = tshape X, nshape b = nshape a &
      forall i, inb (nshape a) i -> get b i = get a i / c].
Proof.
move=> w c0; have [Y E [wY sY dY]] := tdivE w c0.
have [a Ea [wa sa ga]] := to_numpyE w; have [b Eb [wb sb gb]] := to_numpyE wY.
exists Y, a, b; split=> //; split=> //; first by rewrite sb sY sa.
by move=> i; rewrite sa => hi; rewrite gb ?sY // dY // ga.
Qed.
Print Assumptions C06_div.
Theorem C06_div_zero (R : rcfType) (X : tensor R) : tdiv X 0 = Err ZeroDivisionError.
Proof. by rewrite /tdiv eqxx. Qed.
Print Assumptions C06_div_zero.

(* ---- C10: X.norm() is the Frobenius norm of X.to_numpy(), for every format.  [n] is the
   recursion limit, see C09; [pos_tt]: positive mode sizes and ranks. ---- *)
Theorem C10_norm (R : rcfType) (qr : nd R -> res (nd R * nd R)) (X : tensor R) (n : nat) :
  qr_contract qr -> wf X -> (0 < size (tshape X))%N -> (depth X + depth X + 2 < n)%N ->
  (if X is TT cs then pos_tt cs else true) ->
  exists2 a, to_numpy X = Ok a &
  or_linalg (tnorm qr n X) (fun v => v = Num.sqrt (sum_idx (nshape a) (fun i => get a i ^+ 2))).
Proof.
move=> qrP w s d p; have [a Ea _] := to_numpyE w; exists a => //.
by apply: (or_imp (tnormP qrP w s d p)) => v ->; rewrite (sqnorm_obs w Ea).
Qed.
Print Assumptions C10_norm.

(* ---- C12 ---- *)
Theorem C12_orthogonalize (R : rcfType) (qr : nd R -> res (nd R * nd R)) (cs : seq (nd R)) :
  qr_contract qr -> wf_tt cs -> pos_tt cs ->
  or_linalg (tt_orthogonalize qr cs) (fun out =>
    [/\ wf_tt out, tshape (TT out) = tshape (TT cs), to_numpy (TT out) = to_numpy (TT cs),
        all_but_last (@left_orth R) out & below (tt_rank out) (tt_rank cs)]).
Proof.
move=> qrP w p; apply: (or_imp (orthogonalizeP qrP w p)) => out [w1 S1 R1 [A1 P1] G1].
split=> //; last exact: all2_below.
  by apply: to_numpy_same => //; split=> // i; rewrite S1; apply: G1.
by move=> k /A1[].
Qed.
Print Assumptions C12_orthogonalize.

(* ---- C13: [round_args]: a valid train with positive sizes and ranks, a max_rank of the
   right length, and orthogonalized=True only for left-orthogonal trains.  Without max_rank
   the bound is the rank of the input. ---- *)
Theorem C13_round (R : rcfType) qr svd (cs : seq (nd R)) (eps : option R) (m : option ttrank)
   (o : bool) (rk : seq nat) :
  qr_contract qr -> svd_contract svd -> round_args cs m o ->
  (if m is Some m' then process_tt_rank m' (tshape (TT cs)) true = Ok rk else rk = tt_rank cs) ->
  or_linalg (tt_round qr svd cs eps m o) (fun out =>
    [/\ wf_tt out, tshape (TT out) = tshape (TT cs), all_but_first (@right_orth R) out &
        forall k, (k < (size cs).-1)%N ->
          (1 <= nth 0%N (tt_rank out) k <= maxn 1 (nth 0%N rk k))%N]).
Proof. by move=> qrP svdP a E; apply: roundP. Qed.
Print Assumptions C13_round.

(* rounding never increases a rank, whatever max_rank asks for *)
Theorem C13_ranks_do_not_grow (R : rcfType) qr svd (cs : seq (nd R)) (eps : option R)
   (m : option ttrank) (o : bool) :
  qr_contract qr -> svd_contract svd -> round_args cs m o ->
  or_linalg (tt_round qr svd cs eps m o) (fun out =>
    size (tt_rank out) = size (tt_rank cs) /\
    forall k, (nth 0%N (tt_rank out) k <= nth 0%N (tt_rank cs) k)%N).
Proof.
move=> qrP svdP [w p oP mP]; rewrite round_erase; have := tt_round_gP qrP svdP eps w p oP mP.
by case: (tt_round_g _ _ _ _ _ _) => [r|e] //= [tt1 [rk [_ _ [w' S' _ [[b1 b2] _ _ _] _] _]]].
Qed.
Print Assumptions C13_ranks_do_not_grow.

(* ---- C14: [tt_round_g] (RoundSpec.v) is the same program, also returning the dropped
   singular values; the squared error is the sum of their squares. ---- *)
Theorem C14_error_is_discarded (R : rcfType) qr svd (cs : seq (nd R)) (eps : option R)
   (m : option ttrank) (o : bool) :
  qr_contract qr -> svd_contract svd -> round_args cs m o ->
  or_linalg (tt_round_g qr svd cs eps m o) (fun r =>
    tt_round qr svd cs eps m o = Ok r.1 /\
    exists a b, [/\ to_numpy (TT cs) = Ok a, to_numpy (TT r.1) = Ok b, size r.2 = (size cs).-1 &
      sum_idx (nshape a) (fun i => (get a i - get b i) ^+ 2)
      = \sum_(dropped <- r.2) \sum_(s <- dropped) s ^+ 2]).
Proof.
move=> qrP svdP [w p oP mP]; rewrite round_erase; have := tt_round_gP qrP svdP eps w p oP mP.
case: (tt_round_g _ _ _ _ _ _) => [r|e] //= [tt1 [rk [_ _ [w' S' _ [_ _ [sz _] _] [D _]] _]]].
split=> //; have [a Ea _] := to_numpyE (w : wf (TT cs)); have [b Eb _] := to_numpyE (w' : wf (TT r.1)).
by exists a, b; split=> //; rewrite -(sqdist_obs (w : wf (TT cs)) (w' : wf (TT r.1)) _ Ea Eb).
Qed.
Print Assumptions C14_error_is_discarded.
(* ... so the tensor is unchanged when only zeros were dropped *)
Theorem C14_nothing_dropped (R : rcfType) qr svd (cs : seq (nd R)) (eps : option R)
   (m : option ttrank) (o : bool) r :
  qr_contract qr -> svd_contract svd -> round_args cs m o ->
  tt_round_g qr svd cs eps m o = Ok r ->
  (forall dropped, dropped \in r.2 -> forall s, s \in dropped -> s = 0) ->
  tt_round qr svd cs eps m o = Ok r.1 /\ to_numpy (TT r.1) = to_numpy (TT cs).
Proof.
move=> qrP svdP [w p oP mP] E Z; rewrite round_erase E /=; split=> //.
have := tt_round_gP qrP svdP eps w p oP mP; rewrite E /= => -[tt1 [rk [_ _ [w' S' _ _ [D _]] _]]].
by symmetry; apply: (@sqdist0 R (TT cs) (TT r.1)) => //; rewrite D; apply: sum_sq0.
Qed.
Print Assumptions C14_nothing_dropped.
(* rounding is an orthogonal projection: ||X - X'||^2 = ||X||^2 - ||X'||^2 *)
Theorem C14_projection (R : rcfType) qr svd (cs : seq (nd R)) (eps : option R)
   (m : option ttrank) (o : bool) :
  qr_contract qr -> svd_contract svd -> round_args cs m o ->
  or_linalg (tt_round qr svd cs eps m o) (fun out =>
    exists a b, [/\ to_numpy (TT cs) = Ok a, to_numpy (TT out) = Ok b, nshape b = nshape a &
      sum_idx (nshape a) (fun i => (get a i - get b i) ^+ 2)
      = sum_idx (nshape a) (fun i => get a i ^+ 2) - sum_idx (nshape a) (fun i => get b i ^+ 2)]).
Proof.
move=> qrP svdP [w p oP mP]; rewrite round_erase; have := tt_round_gP qrP svdP eps w p oP mP.
case: (tt_round_g _ _ _ _ _ _) => [r|e] //= [tt1 [rk [_ _ [w' S' _ _ [D N]] _]]].
have [a Ea [_ sa _]] := to_numpyE (w : wf (TT cs)); have [b Eb [_ sb _]] := to_numpyE (w' : wf (TT r.1)).
have sab : nshape b = nshape a by rewrite sa sb S'.
exists a, b; split=> //; rewrite -(sqdist_obs (w : wf (TT cs)) (w' : wf (TT r.1)) _ Ea Eb) //.
rewrite D -(sqnorm_obs (w : wf (TT cs)) Ea) -sab -(sqnorm_obs (w' : wf (TT r.1)) Eb).
by rewrite N [RHS]addrC addKr.
Qed.
Print Assumptions C14_projection.
(* the tolerance: where the rank budget was not reached, the squared relative error is at
   most eps^2 times the total reduction of the ranks *)
Theorem C14_eps_bound (R : rcfType) qr svd (cs : seq (nd R)) (eps : R) (m : ttrank) (o : bool)
   (rk : seq nat) :
  qr_contract qr -> svd_contract svd -> round_args cs (Some m) o -> 0 <= eps ->
  process_tt_rank m (tshape (TT cs)) true = Ok rk ->
  or_linalg (tt_round qr svd cs (Some eps) (Some m) o) (fun out =>
    (forall k, (k < (size cs).-1)%N -> (nth 0%N (tt_rank out) k < nth 0%N rk k)%N) ->
    exists a b, [/\ to_numpy (TT cs) = Ok a, to_numpy (TT out) = Ok b &
      sum_idx (nshape a) (fun i => (get a i - get b i) ^+ 2)
      <= eps ^+ 2 * sum_idx (nshape a) (fun i => get a i ^+ 2)
         * (\sum_(0 <= k < (size cs).-1) (nth 0%N (tt_rank cs) k - nth 0%N (tt_rank out) k))%:R]).
Proof.
move=> qrP svdP [w p oP mP] e0 E; rewrite round_erase; have := @tt_round_gP R qr svd qrP svdP cs (Some eps) (Some m) o w p oP mP.
case: (tt_round_g _ _ _ _ _ _) => [r|e] //= [tt1 [rk' [_ E' H _]]] hk.
move: E'; rewrite E => -[Erk]; rewrite -Erk in H.
have := eps_bound H e0 hk; case: H => w' S' _ _ _.
have [a Ea _] := to_numpyE (w : wf (TT cs)); have [b Eb _] := to_numpyE (w' : wf (TT r.1)).
rewrite (sqdist_obs (w : wf (TT cs)) (w' : wf (TT r.1)) _ Ea Eb) // (sqnorm_obs (w : wf (TT cs)) Ea) => B.
by exists a, b.
Qed.
Print Assumptions C14_eps_bound.

(* ---- C15: error.  [expected d n relative rmse shape] (ErrThy.v): d, or d/n when
   relative (None, i.e. infinity, if n = 0), divided by sqrt(number of entries) when rmse.
   Trains need two modes (C08); fast=True needs one of the tensors to be non-zero. ---- *)
Theorem C15_error (R : rcfType) (qr : nd R -> res (nd R * nd R)) (X Y : tensor R) (n : nat)
   (relative rmse fast : bool) :
  qr_contract qr -> wf X -> wf Y -> tshape X = tshape Y -> (0 < size (tshape X))%N ->
  (depth X + depth Y + depth X + depth Y + 2 < n)%N ->
  (if X is TT cs then pos_tt cs else true) -> (if Y is TT cs then pos_tt cs else true) ->
  (if X is TT _ then if Y is TT _ then (2 <= size (tshape X))%N else true else true) ->
  exists a b, [/\ to_numpy X = Ok a, to_numpy Y = Ok b &
   let dist := Num.sqrt (sum_idx (nshape a) (fun i => (get a i - get b i) ^+ 2)) in
   let norm_X := Num.sqrt (sum_idx (nshape a) (fun i => get a i ^+ 2)) in
   let norm_Y := Num.sqrt (sum_idx (nshape b) (fun i => get b i ^+ 2)) in
   (fast -> (norm_X != 0) || (norm_Y != 0)) ->
   or_linalg (terror qr n X Y relative rmse fast)
     (fun e => e = expected dist norm_Y relative rmse (nshape a))].
Proof.
move=> qrP wX wY S s d pX pY p2; have [a Ea [_ sa _]] := to_numpyE wX; have [b Eb _] := to_numpyE wY.
exists a, b; split=> //=; rewrite -(sqdist_obs wX wY S Ea Eb) -(sqnorm_obs wX Ea) -(sqnorm_obs wY Eb) sa.
move=> hf; apply: terrorP => // /hf; rewrite !sqrtr_eq0 -!ltNge.
by case/orP=> h; rewrite (gt_eqF h) ?orbT.
Qed.
Print Assumptions C15_error.
