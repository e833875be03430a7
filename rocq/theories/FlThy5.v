(* Proofs for property C68, part 5: whatever the rounding, the evaluation has a result; without
   rounding it is the one of the exact model. *)
From Coq Require Import String Ascii.
From mathcomp Require Import all_ssreflect all_algebra.
From mathcomp Require Import zify.
From Verif Require Import Py Nd NdThy Ein Utils Tensor Spec ChainThy TensorThy TensorThy2 GatherThy FlModel FlSpec FlThy1 FlThy2 FlThy3 FlThy4.
Set Implicit Arguments. Unset Strict Implicit. Unset Printing Implicit Defensive.
Import GRing.Theory Num.Theory Order.TTheory.
Local Open Scope ring_scope.

Section Exists.
Variable R : realDomainType.
Variable u : R.
Hypothesis u0 : 0 <= u.
Variable fl : R -> R.
Hypothesis flP : forall x, rnd u x (fl x).
Notation arr := (nd R).
Notation tensor := (tensor R).

Fixpoint sumf (I : Type) (t : I -> R) (r : seq I) : R :=
  match r with
  | [::] => 0
  | [:: j] => t j
  | j :: r' => fl (t j + sumf t r')
  end.
Lemma sumfP (I : eqType) (t : I -> R) r : fl_sum u t r (sumf t r).
Proof.
elim: r => [|j r IH]; first exact: fl_none.
case: r IH => [|k r] IH; first exact: fl_one.
exact: (@fl_plus _ _ _ t (j :: k :: r) [:: j] (k :: r) (t j) _ _ (perm_refl _) isT isT (fl_one _ _ _) IH (flP _)).
Qed.
Definition dotf (I : Type) (r : seq I) (f g : I -> R) : R := sumf (fun j => fl (f j * g j)) r.
Lemma dotfP (I : eqType) (r : seq I) (f g : I -> R) : fl_dot u r f g (dotf r f g).
Proof. by exists (fun j => fl (f j * g j)); [move=> j _|exact: sumfP]. Qed.

Lemma last2 (s p : seq nat) k l : size p = size s ->
  [/\ take (size s) (p ++ [:: k; l]) = p, nth 0%N (p ++ [:: k; l]) (size s) = k &
      nth 0%N (p ++ [:: k; l]) (size s).+1 = l].
Proof.
move=> e; split; first by rewrite take_size_cat.
  by rewrite nth_cat e ltnn subnn.
by rewrite nth_cat e ltnNge leqnSn /= subSnn.
Qed.
Lemma inb2 s p n m k l : inb s p -> (k < n)%N -> (l < m)%N -> inb (s ++ [:: n; m]) (p ++ [:: k; l]).
Proof. by move=> h hk hl; rewrite inb_cat ?(inb_size h) // h /= hk hl. Qed.

Lemma tt_step_ex (A C : arr) : exists B, fl_tt_step u A C B.
Proof.
pose F x := dotf (iota 0 (dim C 0)) (fun j => get A (rcons (take (size (lead A)) x) j))
  (fun j => get C [:: j; nth 0%N x (size (lead A)); nth 0%N x (size (lead A)).+1]).
exists (tab (lead A ++ [:: dim C 1; dim C 2]) F); split=> //; first exact: nwf_tab.
move=> p k l hp hk hl; rewrite get_tab ?inb2 // /F.
have [-> -> ->] := last2 k l (inb_size hp); exact: dotfP.
Qed.
Lemma cp_step_ex (A C : arr) : exists B, fl_cp_step u A C B.
Proof.
pose F x := fl (get A (rcons (take (size (lead A)) x) (nth 0%N x (size (lead A)).+1)) *
  get C [:: nth 0%N x (size (lead A)); nth 0%N x (size (lead A)).+1]).
exists (tab (lead A ++ [:: dim C 0; dim C 1]) F); split=> //; first exact: nwf_tab.
move=> p k l hp hk hl; rewrite get_tab ?inb2 // /F.
have [-> -> ->] := last2 k l (inb_size hp); exact: flP.
Qed.
Lemma fold_ex (A S : Type) (P : S -> A -> S -> Prop) : (forall s x, exists s', P s x s') ->
  forall l s, exists s', fl_fold P s l s'.
Proof.
move=> h; elim=> [|x l IH] s /=; first by exists s.
by have [s1 h1] := h s x; have [s2 h2] := IH s1; exists s2, s1.
Qed.

Lemma tt_ex cs : wf_tt cs -> exists a, fl_tt_to_numpy u cs a.
Proof.
case: cs => [|C0 cs] // /andP[_ Hlk].
have := Hlk; rewrite /= => /and3P[HC0 /eqP EC0 Hl].
have P1 : prods (behead (nshape C0)) = prods (nshape C0).
  rewrite {1}EC0 {1}EC0 /=; lia.
have [d0 Ed0 [Hd0 Sd0 Gd0]] := reshape_spec HC0 P1.
have [d hf] := fold_ex tt_step_ex cs d0.
have H1 : links 1 [:: C0] (dim C0 2) by rewrite /= HC0 {1}EC0 !eqxx.
have [] := @fl_tt_fold R u u0 cs [:: C0] d0 d 0 (dim C0 2) 1 H1 Hd0 _ _ Hl hf.
- by rewrite Sd0 EC0.
- move=> i b /= /inb1P[k -> Hk] Hb.
  rewrite -/(chain [:: C0] [:: k] 0 b) -/(chain [:: nabs C0] [:: k] 0 b) !chain1 //=.
  have -> : get d0 [:: k; b] = get C0 [:: 0%N; k; b].
    by apply: Gd0; rewrite {1 2}EC0 /= mul0n add0n.
  exact: apx_core.
move=> Hd Sd Gd.
have P2 : prods (lead d) = prods (nshape d) by rewrite (lead_rcons Sd) Sd prods_rcons muln1.
have [a Ea _] := reshape_spec Hd P2.
by exists a, d0, d.
Qed.

Lemma cp_ex cs : ~~ nilp cs -> exists a, fl_cp_to_numpy u cs a.
Proof.
case: cs => [|C0 cs] // _; have [d hf] := fold_ex cp_step_ex cs C0.
exists (tab (lead d) (fun p => sumf (fun j => get d (rcons p j)) (iota 0 (last 0%N (nshape d))))), d => //.
split=> //; first exact: nwf_tab.
by move=> p hp; rewrite get_tab //; exact: sumfP.
Qed.

Lemma tucker_fold_ex fs todo done (c : arr) : fs = done ++ todo ->
  all (fun U => nwf U && (nshape U == [:: dim U 0; dim U 1])) todo ->
  nwf c -> prods (nshape c) = (prods [seq dim U 1 | U <- done] * prods [seq dim U 0 | U <- todo])%N ->
  exists2 c', fl_fold (fl_tucker_step u [seq dim U 1 | U <- fs] [seq dim U 0 | U <- fs])
    c (zip (iota (size done) (size todo)) todo) c' &
    nwf c' /\ prods (nshape c') = prods [seq dim U 1 | U <- fs].
Proof.
elim: todo done c => [|U todo IH] done c Efs Hwf Hc Pc.
  by exists c => //; rewrite Efs cats0; split=> //; rewrite Pc /= muln1.
move: Hwf => /= /andP[/andP[HU /eqP SU] Hwf].
have E1 : take (size done) [seq dim U 1 | U <- fs] = [seq dim U 1 | U <- done].
  by rewrite Efs map_cat take_size_cat ?size_map.
have E2 : nth 0%N [seq dim U 0 | U <- fs] (size done) = dim U 0.
  by rewrite Efs map_cat nth_cat size_map ltnn subnn.
have E3 : drop (size done).+1 [seq dim U 0 | U <- fs] = [seq dim U 0 | U <- todo].
  by rewrite Efs -cat_rcons map_cat drop_size_cat // size_map size_rcons.
pose L := prods [seq dim U 1 | U <- done]; pose P := prods [seq dim U 0 | U <- todo].
have P1 : prods [:: L; dim U 0; P] = prods (nshape c) by rewrite Pc /= -/P muln1.
have [m Em [Hm Sm Gm]] := reshape_spec Hc P1.
pose T := tab [:: L; dim U 1; P] (fun x => dotf (iota 0 (dim U 0))
  (fun j => get m [:: nth 0%N x 0; j; nth 0%N x 2]) (fun j => get U [:: j; nth 0%N x 1])).
have [||||c' h1 h2] := IH (rcons done U) T.
- by rewrite cat_rcons.
- by [].
- exact: nwf_tab.
- by rewrite /= map_rcons prods_rcons -/L -/P muln1 mulnA.
exists c' => //; exists T; last by rewrite size_rcons in h1.
rewrite /fl_tucker_step E1 E2 E3; exists m => //; split=> //; first exact: nwf_tab.
by move=> a l b ha hl hb; rewrite get_tab /= ?ha ?hl ?hb //; exact: dotfP.
Qed.

Lemma tucker_ex fs core : wf_tucker fs core -> exists a, fl_tucker_to_numpy u fs core a.
Proof.
case/and3P=> Hc /eqP Sc Hfs.
have [|c' h [Hc' Pc']] := @tucker_fold_ex fs fs [::] core erefl Hfs Hc; first by rewrite Sc mul1n.
have [a Ea _] := reshape_spec Hc' (esym Pc').
by exists a, c'.
Qed.

Lemma to_numpy_ex X : wf X -> exists a, fl_to_numpy u X a.
Proof.
elim/tensor_ind': X => [b|s inds v|cs|cs|fs c|s Xs IH] w.
- by exists b.
- by case/andP: w => w1 w2; have [a' e _] := sparse_to_numpyE w1 w2; exists a'.
- exact: tt_ex.
- by apply: cp_ex; case/andP: w.
- exact: tucker_ex.
rewrite /wf wf_sumE in w; case/andP: w => _ w.
suff L acc : exists a, fl_sum_np u a acc Xs.
  by have [a h] := L (zeros R s); exists a; apply/fl_to_numpy_sum.
elim: Xs IH w acc => [|x Xs IHl] IH /= w acc; first by exists acc.
case/andP: w => /andP[Hx _] Hs.
have [|b hb] := IH x _ Hx; first by left.
pose acc' := tab (nshape acc) (fun i => fl (get acc i + get b i)).
have [||a ha] := IHl _ _ acc' => //; first by move=> y Hy; apply: IH; right.
exists a, b, acc'; split=> //; split=> //; first exact: nwf_tab.
by move=> i hi; rewrite get_tab.
Qed.

Lemma gather_step_ex row N (A C : arr) : exists B, fl_gather_step u row N A C B.
Proof.
exists (tab [:: N; dim C 2] (fun x => dotf (iota 0 (dim C 0)) (fun j => get A [:: nth 0%N x 0; j])
  (fun j => get C [:: j; nth 0%N row (nth 0%N x 0); nth 0%N x 1]))).
split=> //; first exact: nwf_tab.
by move=> k l hk hl; rewrite get_tab /= ?hk ?hl //; exact: dotfP.
Qed.

Definition has_gather (X : tensor) : bool :=
  match X with TT _ | CP _ | Sparse _ _ _ => true | _ => false end.

Lemma gather_ex X idx N : wf X -> has_gather X -> wf_inds (tshape X) idx N -> (0 < size (tshape X))%N ->
  exists v, fl_gather u X idx v.
Proof.
case: X => // [s inds v|cs|cs] w _ Hw hp.
- by have := gatherE w Hw hp => /= ->; eexists.
- case: cs w Hw hp => [|C0 cs] // /andP[_] /= /and3P[HC0 /eqP SC0 Hl] Hw _.
  have /and3P[/eqP Hsz Hrow Hin] := Hw.
  case: idx Hw Hsz Hrow Hin => [|i0 idx] // Hw Hsz Hrow Hin.
  have Ei0 : size i0 = N by case/andP: Hrow => /eqP.
  have P1 : prods (behead (nshape C0)) = prods (nshape C0) by rewrite SC0 /= !muln1 mul1n.
  have [c0 Ec0 [Hc0 Sc0 Gc0]] := reshape_spec HC0 P1.
  rewrite SC0 /= in Sc0.
  have hi : all (fun j => (j < dim C0 1)%N) i0.
    apply/(all_nthP 0%N) => k; rewrite Ei0 => Hk.
    have /(allP Hin) : k \in iota 0 N by rewrite mem_iota.
    by case/andP.
  have [r hr] := fold_ex (fun A (p : arr * seq nat) => gather_step_ex p.2 (size i0) A p.1) (zip cs idx)
     (tab2 (size i0) (dim C0 2) (fun k z => get c0 [:: nth 0%N i0 k; z])).
  exists (ndata r), c0, (tab2 (size i0) (dim C0 2) (fun k z => get c0 [:: nth 0%N i0 k; z])), r.
  by split=> //; exact: (take0E Sc0 hi).
case: cs w Hw hp => [|C0 cs] // w Hw _.
case: idx Hw => [|i0 idx] Hw; first by case/andP: Hw.
have Ei0 : size i0 = N by case/and3P: Hw => _ /andP[/eqP].
pose pr k x := foldl (fun z (p : arr * seq nat) => fl (z * get p.1 [:: nth 0%N p.2 k; x]))
  (get C0 [:: nth 0%N i0 k; x]) (zip cs idx).
exists [seq sumf (pr k) (iota 0 (dim C0 1)) | k <- iota 0 (size i0)]; split.
  by rewrite size_map size_iota.
move=> k hk; exists (pr k); last by rewrite (nth_map 0%N) ?size_iota // nth_iota //; exact: sumfP.
move=> x _; rewrite /pr; move: (get C0 _) => z; elim: (zip cs idx) z => //= p l IH z.
by exists (fl (z * get p.1 [:: nth 0%N p.2 k; x])); [exact: flP|exact: IH].
Qed.

Lemma dot_step_ex r (AB : arr * arr) : exists r', fl_dot_step u r AB r'.
Proof.
case: AB => A B.
pose t j k a := dotf (iota 0 (dim A 0)) (fun i => get r [:: i; j]) (fun i => get A [:: i; k; a]).
exists (tab [:: dim A 2; dim B 2] (fun x => dotf [seq (j, k) | j <- iota 0 (dim B 0), k <- iota 0 (dim A 1)]
  (fun p => t p.1 p.2 (nth 0%N x 0)) (fun p => get B [:: p.1; p.2; nth 0%N x 1]))).
split=> //; first exact: nwf_tab.
left; exists t; first by move=> j k a _ _ _; exact: dotfP.
by move=> a b ha hb; rewrite get_tab /= ?ha ?hb //; exact: dotfP.
Qed.

Lemma dot_ex cs1 cs2 : ~~ nilp cs1 -> ~~ nilp cs2 -> exists y, fl_tt_dot u cs1 cs2 y.
Proof.
case: cs1 cs2 => [|A cs1] [|B cs2] // _ _.
pose r0 := tab [:: dim A 2; dim B 2] (fun x => dotf (iota 0 (dim A 1)) (fun j => get A [:: 0%N; j; nth 0%N x 0])
   (fun j => get B [:: 0%N; j; nth 0%N x 1])).
have [r hr] := fold_ex dot_step_ex (zip cs1 cs2) r0.
exists (sumf (fun k => nth 0 (ndata r) k) (iota 0 (size (ndata r)))), r0, r; split=> //; last exact: sumfP.
split=> //; first exact: nwf_tab.
by move=> k m hk hm; rewrite get_tab /= ?hk ?hm //; exact: dotfP.
Qed.
End Exists.
