(* Proofs about error (tensor.py:52-81, 596-608) and division (112-113). *)
From Coq Require Import String Ascii.
From mathcomp Require Import all_ssreflect all_algebra.
From mathcomp Require Import zify.
From Verif Require Import Py Nd NdThy Ein Utils Tensor Spec LinSpec ChainThy TensorThy TensorThy2.
From Verif Require Import TensorThy3 TensorThy4 GatherThy DotThy TrimThy TensorNum SweepThy NormThy.
Set Implicit Arguments. Unset Strict Implicit. Unset Printing Implicit Defensive.
Import GRing.Theory Num.Theory Order.TTheory.
Local Open Scope ring_scope.

Section Err.
Variable R : rcfType.
Notation arr := (nd R).
Notation tensor := (tensor R).
Implicit Types (C : arr) (cs ls : seq arr) (X Y : tensor).

Lemma pos_ttE cs : wf_tt cs -> pos_tt cs =
  all (fun n => (0 < n)%N) (tshape (TT cs : tensor)) && all (fun n => (0 < n)%N) (tt_rank cs).
Proof.
case/andP=> ne L; rewrite /pos_tt /= all_map /tt_rank.
have -> : all (fun n => (0 < n)%N) [seq dim C 0 | C <- behead cs] = all (fun C => (0 < dim C 2)%N) cs.
  case: cs ne L => [|C cs] // _; rewrite [LHS]/= => /= /and3P[_ _].
  elim: cs C => [|D cs IH] C /=; first by move=> /eqP ->.
  case/and3P=> _ /eqP sD L; rewrite (IH D L); congr andb.
  by rewrite {1}/dim sD.
by elim: cs {ne L} => [|C cs IH] //=; rewrite IH andbACA.
Qed.

Lemma tdivE X c : wf X -> c != 0 -> exists2 Y, tdiv X c = Ok Y &
  [/\ wf Y, tshape Y = tshape X & forall i, inb (tshape X) i -> den Y i = den X i / c].
Proof.
move=> w c0; rewrite /tdiv (negbTE c0); have [Y E [w' s d]] := tmulE (1 / c) w.
by exists Y => //; split=> // i hi; rewrite d // mul1r mulrC.
Qed.

Definition expected (dist norm : R) (relative rmse : bool) (shape : seq nat) : option R :=
  let e := if relative then if norm == 0 then None else Some (dist / norm) else Some dist in
  if rmse then omap (fun e => e / Num.sqrt (prods shape)%:R) e else e.

Lemma error_tailE e nrm relative rmse shape : error_tail e (Ok nrm) relative rmse shape
  = Ok (expected e nrm relative rmse shape).
Proof. by rewrite /error_tail /expected; case: relative => /=; [case: eqP => _|]; case: rmse. Qed.

Lemma sqdistE X Y : tshape X = tshape Y ->
  sqdist X Y = sqnorm_of X + sqnorm_of Y - 2%:R * inner X Y.
Proof.
move=> E; rewrite /sqdist /sqnorm_of /inner -E -sum_idxZ -sum_idxD -[- _]mulN1r -sum_idxZ -sum_idxD.
apply: eq_sum_idx => i _; rewrite sqrrB mulN1r addrAC; congr (_ - _).
by rewrite mulr_natl.
Qed.

Variable qr : arr -> res (arr * arr).
Hypothesis qrP : qr_contract qr.

Lemma sqdist_ge0 X Y : 0 <= sqdist X Y.
Proof. by apply: sum_idx_ge0 => i; apply: sqr_ge0. Qed.

Lemma tensor_errorP n X Y relative rmse (fast : bool) : wf X -> wf Y -> tshape X = tshape Y ->
  (0 < size (tshape X))%N -> (depth X + depth Y + depth X + depth Y + 2 < n)%N ->
  (if X is TT cs then pos_tt cs else true) -> (if Y is TT cs then pos_tt cs else true) ->
  (fast -> (sqnorm_of X != 0) || (sqnorm_of Y != 0)) ->
  or_linalg (tensor_error qr n X Y relative rmse fast) (fun e =>
    e = expected (Num.sqrt (sqdist X Y)) (Num.sqrt (sqnorm_of Y)) relative rmse (tshape X)).
Proof.
move=> wX wY S s0 hn pX pY hf; rewrite /tensor_error.
have nY : (depth Y + depth Y + 2 < n)%N by lia.
have nX : (depth X + depth X + 2 < n)%N by lia.
have sY : (0 < size (tshape Y))%N by rewrite -S.
apply: (or_bind (tnormP qrP wY sY nY pY)) => _ ->.
case: fast hf => hf.
  apply: (@or_bind _ _ _ _ (fun e => e = Num.sqrt (sqdist X Y))); last first.
    by move=> _ ->; rewrite error_tailE.
  apply: (or_bind (tnormP qrP wX s0 nX pX)) => _ ->.
  rewrite dotE //; last by lia.
  rewrite [bind _ _]/= !sqr_sqrtr ?sqnorm_of_ge0 //.
  have N0 : sqnorm_of X + sqnorm_of Y != 0.
    rewrite paddr_eq0 ?sqnorm_of_ge0 //; case/orP: (hf isT) => /negbTE ->; rewrite ?andbF //.
  rewrite (negbTE N0) /=; rewrite -sqrtrM ?addr_ge0 ?sqnorm_of_ge0 //; congr Num.sqrt.
  set N := _ + _ in N0 *; have Np : 0 < N by rewrite lt_neqAle eq_sym N0 addr_ge0 ?sqnorm_of_ge0.
  rewrite -{1}(ger0_norm (ltW Np)) -normrM mulrBr mulr1 mulrCA -mulrA divff // mulr1.
  by rewrite -sqdistE // ger0_norm // sqdist_ge0.
have [a Ea [wa sa ga]] := to_numpyE wX; have [b Eb [wb sb gb]] := to_numpyE wY.
rewrite Ea Eb [bind (Ok a) _]/= /nsub elementwiseE; last by rewrite sa sb.
rewrite [bind (Ok _) _]/= error_tailE /nnorm sqnormE ?nwf_tab //= sa; congr expected.
congr Num.sqrt; apply: eq_sum_idx => i hi; rewrite get_tab ?sa // ga // gb -?S //.
Qed.

Lemma tt_errorP cs1 cs2 relative rmse : wf_tt cs1 -> wf_tt cs2 -> (2 <= size cs1)%N ->
  tshape (TT cs1 : tensor) = tshape (TT cs2) -> pos_tt cs1 -> pos_tt cs2 ->
  or_linalg (tt_error qr cs1 cs2 relative rmse) (fun e =>
    e = expected (Num.sqrt (sqdist (TT cs1) (TT cs2))) (Num.sqrt (sqnorm_of (TT cs2))) relative rmse
          (tshape (TT cs1))).
Proof.
move=> w1 w2 s2 S p1 p2; rewrite /tt_error.
have [Y E [wY sY dY]] := tmulE (-1) (w2 : wf (TT cs2)); rewrite /tneg E [bind _ _]/=.
have [ncs EY] : exists ncs, Y = TT ncs.
  by move: E; rewrite /=; case: (rev cs2) => // C r [<-]; eexists.
subst Y; have S' : tshape (TT cs1 : tensor) = tshape (TT ncs) by rewrite S -sY.
have [cs -> [w Sc Rc Dc]] := tt_addE w1 wY s2 S'; rewrite [bind _ _]/=.
have p : pos_tt cs.
  rewrite (pos_ttE w) Sc Rc; move: (p1); rewrite (pos_ttE w1) => /andP[-> h] /=.
  rewrite all_map; apply/(all_nthP (0, 0)%N) => k; rewrite size_zip => hk.
  have hk1 : (k < size (tt_rank cs1))%N by apply: leq_trans hk (geq_minl _ _).
  have sz : size (tt_rank cs1) = size (tt_rank ncs).
    by move/(f_equal size): S'; rewrite /= !size_map !size_behead => ->.
  by rewrite nth_zip //= addn_gt0 (all_nthP 0%N h).
apply: (or_bind (tt_normP qrP w p)) => _ ->.
have n2 := tt_normP qrP w2 p2.
have dE : sqnorm_of (TT cs) = sqdist (TT cs1) (TT cs2).
  rewrite /sqnorm_of Sc /sqdist; apply: eq_sum_idx => i hi.
  by rewrite Dc // dY -?S // mulN1r.
case: (tt_norm qr cs2) n2 => [v|e] /= n2.
  by rewrite error_tailE n2 dE.
rewrite /error_tail; case: relative => //=; by case: rmse; rewrite /= dE.
Qed.

Lemma terrorP n X Y relative rmse (fast : bool) : wf X -> wf Y -> tshape X = tshape Y ->
  (0 < size (tshape X))%N -> (depth X + depth Y + depth X + depth Y + 2 < n)%N ->
  (if X is TT cs then pos_tt cs else true) -> (if Y is TT cs then pos_tt cs else true) ->
  (if X is TT _ then if Y is TT _ then (2 <= size (tshape X))%N else true else true) ->
  (fast -> (sqnorm_of X != 0) || (sqnorm_of Y != 0)) ->
  or_linalg (terror qr n X Y relative rmse fast) (fun e =>
    e = expected (Num.sqrt (sqdist X Y)) (Num.sqrt (sqnorm_of Y)) relative rmse (tshape X)).
Proof.
move=> wX wY S s0 hn pX pY h2 hf.
have := @tensor_errorP n X Y relative rmse fast wX wY S s0 hn pX pY hf.
case: X Y wX wY S s0 hn pX pY h2 hf => [a|s i v|cs|cs|fs c|s Xs] [b|s' i' v'|cs'|cs'|fs' c'|s' Xs'] //.
move=> w1 w2 S _ _ p1 p2 h2 _ _; apply: tt_errorP => //.
by move: h2; rewrite /= size_map.
Qed.
End Err.
