(* general_sketch in the streaming mode: every Omega and Psi *)
From Coq Require Import String Ascii NArith.
From mathcomp Require Import all_ssreflect all_algebra.
From mathcomp Require Import zify.
From Verif Require Import Py Nd NdThy Ein Utils Tensor Hash Sketch Spec ChainThy TensorThy TensorThy2 GatherThy MatThy RoundThy SkSpec SkThy1 SkThy2 SkThy3 SkThy4 SkThy5 SkThy6 SkThy7.
Set Implicit Arguments. Unset Strict Implicit. Unset Printing Implicit Defensive.
Import GRing.Theory.
Local Open Scope ring_scope.

Section Gs.
Variable R : comRingType.
Variable to_normal : N -> R.
Variable lstsq : nd R -> nd R -> res (nd R).
Variable qr_econ : nd R -> res (nd R * nd R).
Notation arr := (nd R).
Notation tensor := (tensor R).
Notation drm := (drm R).
Notation skt := (skt R).
Notation C0 := (C0 R).
Notation L0 := (Leaf (Nd [::] [::])).
Implicit Types (X Y : tensor) (cs ds fs : seq arr) (n mu : nat) (D E : drm).

Lemma lval_none nr X : leaf X -> wf_gen nr X -> lval X 0 1 (one_fun R) None.
Proof.
move=> lf w; split=> // p c hp hc; rewrite take0 /= /one_fun mulr1.
case: X lf w hp => [a|s inds vals|cs|cs|fs core|//] _ w hp; rewrite /= in hp *; rewrite ?take0 //= ?take0 //= in hp *.
- by case: p hp.
- case/andP: w => wn; case: cs hp wn => [|C cs] //= hp _ /and3P[_ /eqP e _].
  by move: hp; rewrite {1}/dim e; case: (p).
- by rewrite /cprod /= big_nil.
- by rewrite /tprod big_nil.
Qed.

Lemma rval_none nr X : leaf X -> wf_gen nr X -> rval X (size (tshape X)) 1 (one_fun R) None.
Proof.
move=> lf w; split=> [|p c hp hc]; first by rewrite /= !eqxx.
rewrite drop_size /= /one_fun mulr1.
case: X lf w hp => [a|s inds vals|cs|cs|fs core|//] _ w hp; rewrite /= in hp *.
- by move: hp; rewrite drop_size; case: p.
- case/andP: w => /and3P[/eqP si _ _] _; by rewrite drop_oversize // size_map si.
- move: hp; rewrite !size_map drop_size /= nth_default ?size_map //.
  by case: p.
- by rewrite size_map drop_size /cprod /= big_nil.
- by rewrite /tprod size_map drop_size (drop_oversize (s := tranks fs)) ?size_map /= ?big_nil.
Qed.

Lemma all2P_nseq (A B : Type) (P : A -> B -> Prop) l y : (forall x, List.In x l -> P x y) ->
  all2P P l (nseq (size l) y).
Proof.
elim: l => [|x l IH] H //=; split; first by apply: H; left.
by apply: IH => z hz; apply: H; right.
Qed.

Lemma lsk_none nr X : wf_gen nr X -> lsk 0 1 (fun _ => one_fun R) X None.
Proof.
elim/tensor_ind': X => [a|s i v|cs|cs|fs c|s Xs IH] w; try by apply: (lval_none (nr := nr)).
split=> //; apply: all2P_nseq => x hx; apply: IH => //.
by rewrite wf_sumE in w; have /andP[wx _] := in_mem (proj2 (andP w)) hx.
Qed.
Lemma rsk_none nr X : wf_gen nr X -> rsk (size (tshape X)) 1 (fun _ => one_fun R) X None.
Proof.
elim/tensor_ind': X => [a|s i v|cs|cs|fs c|s Xs IH] w; try by apply: (rval_none (nr := nr)).
split=> //; apply: all2P_nseq => x hx.
rewrite wf_sumE in w; have /andP[wx /eqP sx] := in_mem (proj2 (andP w)) hx.
by rewrite /= -sx; apply: IH.
Qed.

Lemma leaves_true X : leaves (fun _ => true) X.
Proof.
elim/tensor_ind': X => //= s Xs; elim: Xs => [|x Xs IHl] //= IH.
by rewrite IH ?IHl; [|move=> y hy; apply: IH; right|left].
Qed.

(* one Psi and one Omega, for format-independent functionals *)
Lemma omega_ofE nr f g mu X r1 r2 L Rt : wf_gen nr X -> (mu.+1 < size (tshape X))%N ->
  lsk mu.+1 r1 (fun _ => f) X (Some L) -> rsk mu.+1 r2 (fun _ => g) X (Some Rt) ->
  omega X mu [:: r1; r2] L Rt = Ok (tab2 r1 r2 (Omega_of f g (tshape X) (den X) mu)).
Proof.
move=> w hn hL hR; rewrite (omega_skE w hn hL hR); congr Ok; apply: tab2_ext => a b ha hb.
by apply: (sk_omegaE _ _ _ w (leaves_true X)).
Qed.
Lemma psi_ofE nr f g mu X r1 r2 L Rt : wf_gen nr X -> (mu < size (tshape X))%N ->
  (1 < size (tshape X))%N -> lsk mu r1 (fun _ => f) X L -> rsk mu.+1 r2 (fun _ => g) X Rt ->
  psi X mu [:: r1; nth 0%N (tshape X) mu; r2] L Rt =
    Ok (tab3 r1 (nth 0%N (tshape X) mu) r2 (Psi_of f g (tshape X) (den X) mu)).
Proof.
move=> w hn hs hL hR; rewrite (psi_skE w hn hs hL hR); congr Ok; apply: tab3_ext => a k b ha hk hb.
by apply: (sk_psiE _ _ _ _ w (leaves_true X)).
Qed.

(* the right-hand argument of Psi *)
Definition rarg (rc : seq skt) (d mu : nat) : option skt := if (mu < d.-1)%N then Some (nth L0 rc mu) else None.

Section Right.
Variables (nr : bool) (X : tensor) (g : nat -> seq nat -> nat -> R) (rr : nat -> nat) (rc : seq skt).
Hypothesis w : wf_gen nr X.
Let d := size (tshape X).
Hypothesis d1 : (1 < d)%N.
Hypothesis src : size rc = d.-1.
Hypothesis hR : forall mu, (mu < d.-1)%N -> rsk mu.+1 (rr mu) (fun _ => g mu) X (Some (nth L0 rc mu)).

Lemma rargE mu : (mu < d)%N ->
  rsk mu.+1 (at_right rr 1%N d mu) (fun _ => at_right g (one_fun R) d mu) X (rarg rc d mu).
Proof.
move=> hm; rewrite /at_right /rarg; case: ltnP => hd; first exact: hR.
have -> : mu.+1 = d by clear -hm hd; lia.
exact: (rsk_none w).
Qed.

Lemma rr_pick (Psis : seq arr) (rrank : seq nat) mu (K : option skt * nat -> res (seq arr)) :
  size rrank = d.-1 -> (forall m, (m < d.-1)%N -> rr m = nth 0%N (rev rrank) m) -> (mu < d)%N ->
  (do p <- (if (mu < d.-1)%N then
              do r <- pyget rc mu; do r2 <- pyget (rev rrank) mu; Ok (Some r, r2)
            else Ok (None, 1%N)); K p) =
  K (rarg rc d mu, at_right rr 1%N d mu).
Proof.
move=> sr er hm; rewrite /rarg /at_right; case: ltnP => hd //.
by rewrite (pygetE L0) ?src //= (pygetE 0%N) ?size_rev ?sr //= er.
Qed.
End Right.

Section Streaming.
Variables (nr : bool) (X : tensor) (f g : nat -> seq nat -> nat -> R) (lr rr : nat -> nat).
Variables (D E : drm) (lc rc : seq skt).
Hypothesis w : wf_gen nr X.
Let d := size (tshape X).
Hypothesis d1 : (1 < d)%N.
Hypothesis src : size rc = d.-1.
Hypothesis slc : size lc = d.-1.
Hypothesis hR : forall mu, (mu < d.-1)%N -> rsk mu.+1 (rr mu) (fun _ => g mu) X (Some (nth L0 rc mu)).
Hypothesis hL : forall mu, (mu < d.-1)%N -> lsk mu.+1 (lr mu) (fun _ => f mu) X (Some (nth L0 lc mu)).
Hypothesis sD : size (d_rank D) = d.-1.
Hypothesis sE : size (d_rank E) = d.-1.
Hypothesis erE : forall mu, (mu < d.-1)%N -> rr mu = nth 0%N (rev (d_rank E)) mu.
Hypothesis elD : forall mu, (mu < d.-1)%N -> lr mu = nth 0%N (d_rank D) mu.
Hypothesis elc : sketch_all to_normal D X = Ok lc.
Hypothesis erc : sketch_all to_normal E X = Ok rc.

Definition Psi_arr mu : arr := tab3 (at_left lr 1%N mu) (nth 0%N (tshape X) mu) (at_right rr 1%N d mu)
  (Psi_of (at_left f (one_fun R) mu) (at_right g (one_fun R) d mu) (tshape X) (den X) mu).

Lemma omegasE : exists2 Os, mapM (fun mu =>
                   do l <- pyget lc mu; do r <- pyget rc mu;
                   do r1 <- pyget (d_rank D) mu; do r2 <- pyget (rev (d_rank E)) mu;
                   omega X mu [:: r1; r2] l r) (iota 0 d.-1) = Ok Os &
  size Os = d.-1 /\ forall mu, (mu < d.-1)%N ->
   nth C0 Os mu = tab2 (lr mu) (rr mu) (Omega_of (f mu) (g mu) (tshape X) (den X) mu).
Proof.
apply: (@mapM_iotaE R _ d.-1 (fun mu A => A = tab2 (lr mu) (rr mu) (Omega_of (f mu) (g mu) (tshape X) (den X) mu))) => mu hm.
rewrite (pygetE L0) ?slc //= (pygetE L0) ?src //= (pygetE 0%N) ?sD //= (pygetE 0%N) ?size_rev ?sE //=.
rewrite -elD // -erE // (omega_ofE w _ (hL hm) (hR hm)); first by eexists.
by rewrite -/d; clear -hm; lia.
Qed.

Lemma psi_stepS Os Ps mu : (mu < d)%N ->
  psi_step to_normal lstsq qr_econ X Streaming (d_rank D) (d_rank E) lc rc Os Ps mu =
    Ok (rcons Ps (Psi_arr mu)).
Proof.
move=> hm; rewrite /psi_step -/d.
have -> : (if (0 < mu)%N then do l <- pyget lc mu.-1; do r1 <- pyget (d_rank D) mu.-1; Ok (Some l, r1)
   else Ok (None, 1%N)) = Ok (if mu is m.+1 then Some (nth L0 lc m) else None, at_left lr 1%N mu).
  case: mu hm => [|mu] hm //=; rewrite (pygetE L0) ?slc; last by clear -hm; lia.
  by rewrite (pygetE 0%N) ?sD /= ?elD //; clear -hm; lia.
rewrite [bind (Ok _) _]/= (rr_pick src [::] (rr := rr)) //=.
rewrite (@psi_ofE nr (at_left f (one_fun R) mu) (at_right g (one_fun R) d mu)) //=.
- by case: ifP.
- case: mu hm => [|mu] hm /=; first exact: lsk_none w.
  by apply: hL; clear -hm; lia.
exact: (rargE w hR).
Qed.

Lemma general_streamE : exists2 s, general_sketch to_normal lstsq qr_econ X (Some D) E Streaming = Ok s &
  is_sketch_with f g lr rr (tshape X) (den X) s.
Proof.
rewrite /general_sketch elc /= erc /=.
have [Os -> [sO hO]] /= := omegasE.
suff [Ps -> [sP hP]] /= : exists2 Ps, foldM (psi_step to_normal lstsq qr_econ X Streaming (d_rank D) (d_rank E) lc rc Os) [::] (iota 0 d) = Ok Ps
    & size Ps = d /\ forall mu, (mu < d)%N -> nth C0 Ps mu = Psi_arr mu.
  eexists; first by []; split=> //=.
  - by move=> mu hm; rewrite hP //; split=> //; [exact: nwf_tab | move=> a k b ha hk hb; rewrite get_tab3].
  - by move=> mu hm; rewrite hO //; split=> //; [exact: nwf_tab | move=> a b ha hb; rewrite get_tab2].
have : (d <= d)%N by []; move: {1 3 4 5}d; elim=> [|n IH] hn; first by exists [::].
have [|Ps ePs [sP hP]] := IH; first exact: ltnW.
exists (rcons Ps (Psi_arr n)); first by rewrite iotaSr foldM_rcons ePs /= psi_stepS.
rewrite size_rcons sP; split=> // mu; rewrite ltnS leq_eqVlt nth_rcons sP => /orP[/eqP->|hm].
  by rewrite ltnn eqxx.
by rewrite hm hP.
Qed.
End Streaming.
End Gs.
