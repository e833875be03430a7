(* C65: inconsistent tensors.  The constructors check nothing; these theorems say which
   inconsistencies to_numpy rejects with ValueError and which it accepts silently. *)
From Coq Require Import String Ascii.
From mathcomp Require Import all_ssreflect all_algebra.
From mathcomp Require Import zify.
From Verif Require Import Py Nd NdThy Ein Utils Tensor Spec TensorThy TensorThy2 Ex.
Set Implicit Arguments. Unset Strict Implicit. Unset Printing Implicit Defensive.
Import GRing.Theory.
Local Open Scope ring_scope.

(* two sizes that einsum takes for the same label: equal, or one of them is 1 (it is repeated) *)
Definition compat (a b : nat) : bool := [|| a == b, a == 1 | b == 1]%N.

Section Malformed.
Variable R : comRingType.
Notation arr := (nd R).
Notation C0 := (Nd [::] [::] : arr).
Implicit Types (A B C d : arr) (cs fs : seq arr).

(* an array with the given number of axes, none of them empty *)
Definition proper (n : nat) C : bool := [&& nwf C, size (nshape C) == n & all (fun k => 0 < k)%N (nshape C)].
(* the first and last rank are 1 and neighbouring ranks are compatible *)
Definition joinable cs : bool :=
  [&& dim (nth C0 cs 0) 0 == 1%N, dim (nth C0 cs (size cs).-1) 2 == 1%N &
      all (fun k => compat (dim (nth C0 cs k) 2) (dim (nth C0 cs k.+1) 0)) (iota 0 (size cs).-1)].

(* ---- einsum with sizes that need not agree ---- *)
Lemma ein_tt A B e j j' k l : nshape A = [:: e; j] -> nshape B = [:: j'; k; l] ->
  if compat j j' then exists2 C, einsum "Ej,jkl->Ekl" [:: A; B] = Ok C & nwf C /\ nshape C = [:: e; k; l]
  else einsum "Ej,jkl->Ekl" [:: A; B] = Err ValueError.
Proof.
move=> sA sB; rewrite /einsum /einsum_lbl /= /add_operand /ndim sA sB /= /compat (eq_sym j j').
case: (j =P 1%N) => [_|j1] /=; first by rewrite orbT; eexists; first (by []); split=> //; exact: nwf_tab.
case: (j' =P 1%N) => [_|j1'] /=; first by rewrite orbT; eexists; first (by []); split=> //; exact: nwf_tab.
case: (j' == j) => //=; eexists; first (by []); split=> //; exact: nwf_tab.
Qed.
Lemma ein_cp A B e j j' i : nshape A = [:: e; j] -> nshape B = [:: i; j'] ->
  if compat j j' then exists2 C, einsum "Ej,ij->Eij" [:: A; B] = Ok C & nwf C /\ nshape C = [:: e; i; if j == 1%N then j' else j]
  else einsum "Ej,ij->Eij" [:: A; B] = Err ValueError.
Proof.
move=> sA sB; rewrite /einsum /einsum_lbl /= /add_operand /ndim sA sB /= /compat (eq_sym j j').
case: (j =P 1%N) => [_|j1] /=; first by rewrite orbT; eexists; first (by []); split=> //; exact: nwf_tab.
case: (j' =P 1%N) => [_|j1'] /=; first by rewrite orbT; eexists; first (by []); split=> //; exact: nwf_tab.
case: (j' == j) => //=; eexists; first (by []); split=> //; exact: nwf_tab.
Qed.

Lemma ell_tt_any d C s j j' n l : nwf d -> nshape d = rcons s j -> nshape C = [:: j'; n; l] ->
  if compat j j' then exists2 D, einsum_ell "Ej,jkl->Ekl" d C = Ok D & nwf D /\ nshape D = rcons (rcons s n) l
  else einsum_ell "Ej,jkl->Ekl" d C = Err ValueError.
Proof.
move=> wd sd sC; rewrite /einsum_ell /ndim sd take_rcons last_rcons.
have P1 : prods [:: prods s; j] = prods (nshape d) by rewrite sd prods_rcons /= muln1.
have [b -> [_ sb _]] := reshape_spec wd P1; cbn [bind].
have := ein_tt sb sC; case: ifP => _; last by move=> ->.
move=> [D -> [wD sD]]; cbn [bind].
have P2 : prods (s ++ [:: n; l]) = prods (nshape D) by rewrite sD prods_cat /= !muln1.
have [D' E [wD' sD' _]] := reshape_spec wD P2; exists D'; first by rewrite sD.
by split=> //; rewrite sD' -cats1 -cats1 -catA.
Qed.
Lemma ell_cp_any d C s j j' n : nwf d -> nshape d = rcons s j -> nshape C = [:: n; j'] ->
  if compat j j' then exists2 D, einsum_ell "Ej,ij->Eij" d C = Ok D & nwf D /\ nshape D = rcons (rcons s n) (if j == 1%N then j' else j)
  else einsum_ell "Ej,ij->Eij" d C = Err ValueError.
Proof.
move=> wd sd sC; rewrite /einsum_ell /ndim sd take_rcons last_rcons.
have P1 : prods [:: prods s; j] = prods (nshape d) by rewrite sd prods_rcons /= muln1.
have [b -> [_ sb _]] := reshape_spec wd P1; cbn [bind].
have := ein_cp sb sC; case: ifP => _; last by move=> ->.
move=> [D -> [wD sD]]; cbn [bind]; set l := (if j == 1%N then j' else j) in sD *.
have P2 : prods (s ++ [:: n; l]) = prods (nshape D) by rewrite sD prods_cat /= !muln1.
have [D' E [wD' sD' _]] := reshape_spec wD P2; exists D'; first by rewrite sD.
by split=> //; rewrite sD' -cats1 -cats1 -catA.
Qed.

Lemma proper3 C : proper 3 C -> [/\ nwf C, nshape C = [:: dim C 0; dim C 1; dim C 2] & [/\ 0 < dim C 0, 0 < dim C 1 & 0 < dim C 2]%N].
Proof.
by case/and3P=> w; rewrite /dim; case: (nshape C) => [|a [|b [|c [|? ?]]]] //= _ /and4P[-> -> -> _]; split.
Qed.
Lemma proper2 C : proper 2 C -> [/\ nwf C, nshape C = [:: dim C 0; dim C 1] & (0 < dim C 0)%N /\ (0 < dim C 1)%N].
Proof.
by case/and3P=> w; rewrite /dim; case: (nshape C) => [|a [|b [|? ?]]] //= _ /and3P[-> -> _]; split.
Qed.

(* ---- trains ---- *)
Fixpoint joins (j : nat) cs : bool := if cs is C :: cs' then compat j (dim C 0) && joins (dim C 2) cs' else true.

Lemma fold_tt d s j cs : nwf d -> nshape d = rcons s j -> all (proper 3) cs ->
  if joins j cs then exists2 D, foldM (fun d C => einsum_ell "Ej,jkl->Ekl" d C) d cs = Ok D &
    nwf D /\ nshape D = rcons (s ++ [seq dim C 1 | C <- cs]) (last j [seq dim C 2 | C <- cs])
  else foldM (fun d C => einsum_ell "Ej,jkl->Ekl" d C) d cs = Err ValueError.
Proof.
elim: cs d s j => [|C cs IH] d s j wd sd /=; first by move=> _; exists d => //; rewrite cats0.
move=> /andP[/proper3[wC sC _] pcs]; have := ell_tt_any wd sd sC.
case: (compat j (dim C 0)); last by move=> ->.
move=> [D -> [wD sD]] /=; have := IH D _ _ wD sD pcs; by rewrite cat_rcons.
Qed.

Lemma joinsE C cs : joins (dim C 2) cs = all (fun k => compat (dim (nth C0 (C :: cs) k) 2) (dim (nth C0 (C :: cs) k.+1) 0)) (iota 0 (size cs)).
Proof.
elim: cs C => [|D cs IH] C //=; congr (_ && _); rewrite IH.
by rewrite -[1%N]addn0 iotaDl all_map; apply: eq_all => k.
Qed.

Theorem C65_train cs : ~~ nilp cs -> all (proper 3) cs ->
  if joinable cs then exists2 a, to_numpy (TT cs) = Ok a & nshape a = [seq dim C 1 | C <- cs]
  else to_numpy (TT cs) = Err ValueError.
Proof.
case: cs => [|C cs] // _ /andP[pC pcs]; have [wC sC [a0 a1 a2]] := proper3 pC.
rewrite /joinable /= -joinsE sC /=.
have -> : reshape C [:: dim C 1; dim C 2] = if dim C 0 == 1%N then Ok (Nd [:: dim C 1; dim C 2] (ndata C)) else Err ValueError.
  rewrite /reshape sC /= !muln1 -[X in X == _]mul1n eqn_pmul2r ?muln_gt0 ?a1 //.
  by rewrite eq_sym.
case: (dim C 0 =P 1%N) => e0 //; cbn [bind]; set d := Nd [:: dim C 1; dim C 2] (ndata C).
have wd : nwf d by move: wC; rewrite /nwf sC e0 /= mul1n.
have := @fold_tt d [:: dim C 1] (dim C 2) cs wd erefl pcs; rewrite andTb andbC.
case: (joins (dim C 2) cs); last by move=> ->.
move=> [D -> [wD sD]]; cbn [bind]; rewrite andTb; set l := last _ _ in sD.
have sD' : nshape D = rcons [seq dim C 1 | C <- C :: cs] l by rewrite sD.
have lin : nth C0 (C :: cs) (size cs) = last C cs by rewrite (last_nth C0).
have el : dim (last C cs) 2 = l by rewrite /l -(last_map (fun C => dim C 2) cs C).
have pr : all (proper 3) (C :: cs) by rewrite /= pC.
have l0 : (0 < l)%N by have /proper3[_ _ [_ _]] := allP pr _ (mem_last C cs); rewrite el.
have p0 : (0 < prods [seq dim C 1 | C <- C :: cs])%N.
  by elim: (C :: cs) pr => [|E es IH] //= /andP[/proper3[_ _ [_ h _]] /IH h']; rewrite muln_gt0 h.
rewrite lin el /ndim sD' take_rcons /reshape sD' prods_rcons (_ : (prods _ == _) = (l == 1%N)); last by rewrite -{1}[prods _]muln1 eqn_pmul2l // eq_sym.
by case: (l == 1%N) => //; eexists.
Qed.

(* ---- CP tensors: the ranks must be equal, except for those that are 1 ---- *)
Definition max_rank cs : nat := foldr (fun C m => maxn (dim C 1) m) 1%N cs.

Lemma fold_cp d s j cs : nwf d -> nshape d = rcons s j -> (0 < j)%N -> all (proper 2) cs ->
  let m := maxn j (max_rank cs) in
  if (j == 1%N) || (j == m) then
    if all (fun C => (dim C 1 == 1%N) || (dim C 1 == m)) cs
    then exists2 D, foldM (fun d C => einsum_ell "Ej,ij->Eij" d C) d cs = Ok D & nwf D /\ nshape D = rcons (s ++ [seq dim C 0 | C <- cs]) m
    else foldM (fun d C => einsum_ell "Ej,ij->Eij" d C) d cs = Err ValueError
  else foldM (fun d C => einsum_ell "Ej,ij->Eij" d C) d cs = Err ValueError.
Proof.
elim: cs d s j => [|C cs IH] d s j wd sd j0 /=.
  by move=> _; rewrite (maxn_idPl j0) eqxx orbT cats0; exists d.
move=> /andP[/proper2[wC sC [n0 r0]] pcs]; have := ell_cp_any wd sd sC.
set r := dim C 1 in r0 *; set m' := max_rank cs.
have m0 : (0 < m')%N by rewrite /m'; elim: (cs) => //= *; rewrite leq_max; apply/orP; right.
case hc: (compat j r); last first.
  move=> -> /=; set m := maxn j _.
  have : ~~ (((j == 1%N) || (j == m)) && ((r == 1%N) || (r == m))) by move: hc; rewrite /compat; clear; lia.
  by case: ((j == 1%N) || (j == m)) => //= /negPf ->.
move=> [D -> [wD sD]] /=; have := IH D _ _ wD sD _ pcs; rewrite cat_rcons.
have hm : maxn (if j == 1%N then r else j) m' = maxn j (maxn r m').
  by move: hc; rewrite /compat; case: (j =P 1%N) => [->|_] /=; [move=> _|case/orP=> /eqP ->]; clear -j0 r0 m0; lia.
rewrite -/m' hm; set m := maxn j (maxn r m').
case: (j =P 1%N) => [j1|j1] /=; first by move/(_ r0); case: ((r == 1%N) || (r == m)).
case: (j =P m) => jm /=.
  have -> : (r == 1%N) || (r == m) by move: hc jm j1; rewrite /compat; clear; lia.
  by move/(_ j0); rewrite orbT.
by move/(_ j0); rewrite orbF (introF eqP j1).
Qed.

Theorem C65_cp cs : ~~ nilp cs -> all (proper 2) cs ->
  if all (fun C => (dim C 1 == 1%N) || (dim C 1 == max_rank cs)) cs
  then exists2 a, to_numpy (CP cs) = Ok a & nshape a = [seq dim C 0 | C <- cs]
  else to_numpy (CP cs) = Err ValueError.
Proof.
case: cs => [|C cs] // _ /andP[pC pcs]; have [wC sC [n0 r0]] := proper2 pC.
have := @fold_cp C [:: dim C 0] (dim C 1) cs wC sC r0 pcs => /=.
set m := maxn _ _; case: ((dim C 1 == 1%N) || (dim C 1 == m)) => /=; last by move=> ->.
case: ifP => _; last by move=> ->.
move=> [D -> [wD sD]]; exists (sum_last D) => //.
have sD' : nshape D = rcons [seq dim C 0 | C <- C :: cs] m by rewrite sD.
by rewrite -[LHS]/(take (ndim D).-1 (nshape D)) /ndim sD' take_rcons.
Qed.

(* ---- Tucker tensors: only the number of entries of the core counts; a core of the wrong shape is
   read, in C order, as if it had the right one ---- *)
Lemma reshape_same (a b : arr) s : ndata a = ndata b -> prods (nshape a) = prods (nshape b) -> reshape a s = reshape b s.
Proof. by rewrite /reshape => -> ->. Qed.

Theorem C65_tucker fs core : nwf core -> all (fun U => nwf U && (size (nshape U) == 2%N)) fs ->
  let core' := Nd [seq dim U 0 | U <- fs] (ndata core) in
  if prods (nshape core) == prods [seq dim U 0 | U <- fs]
  then wf (Tucker fs core') /\ exists2 a, to_numpy (Tucker fs core) = Ok a & to_numpy (Tucker fs core') = Ok a
  else to_numpy (Tucker fs core) = Err ValueError.
Proof.
move=> wc hf core'; case: eqP => [e|ne].
  have w : wf (Tucker fs core').
    have -> : wf (Tucker fs core') = wf_tucker fs core' by [].
    have w' : nwf core' by move: wc; rewrite /nwf e.
    rewrite /wf_tucker w' eqxx !andTb; apply: sub_all hf => U /andP[-> /=].
    by rewrite /dim; case: (nshape U) => [|? [|? [|? ?]]].
  split=> //; have [a ea _] := to_numpyE w; exists a => //; rewrite -ea /= /tucker_to_numpy.
  have er t : reshape core t = reshape core' t by apply: reshape_same.
  by case: (fs) => [|U us] /=; rewrite er.
rewrite /= /tucker_to_numpy; case: fs {hf core'} ne => [|U us] ne /=.
  by rewrite /reshape; case: eqP => // e; case: ne; rewrite -e.
rewrite {1}/reshape /tucker_rank /=; case: eqP => //= e; case: ne; move: e; rewrite drop0 /= !mul1n !muln1 => <-.
by rewrite ?mulnA.
Qed.

(* ---- sums: every summand must broadcast to the shape of the first; then it is repeated along
   the axes where its size is 1 or that it does not have ---- *)
Definition broadcasts (t s : seq nat) : bool :=
  (size t <= size s)%N && all (fun k => (nth 0 (rev t) k == nth 0 (rev s) k) || (nth 0 (rev t) k == 1))%N (iota 0 (size t)).

Lemma bcast_revE (s t : seq nat) : (bcast_rev s t == Some s) =
  (size t <= size s)%N && all (fun k => (nth 0 t k == nth 0 s k) || (nth 0 t k == 1))%N (iota 0 (size t)).
Proof.
elim: s t => [|n s IH] [|m t] //=; first by rewrite eqxx.
rewrite ltnS -[1%N]addn0 iotaDl all_map [n == m]eq_sym.
have -> : all (preim (addn 1) (fun k => (nth 0 (m :: t) k == nth 0 (n :: s) k) || (nth 0 (m :: t) k == 1%N))%N) (iota 0 (size t)) =
  all (fun k => (nth 0 t k == nth 0 s k) || (nth 0 t k == 1))%N (iota 0 (size t)) by apply: eq_all.
case hm: ((m == n) || (m == 1%N)) => /=; last first.
  rewrite !andbF; case: ifP => // _; case: (bcast_rev s t) => //= u; apply/eqP => -[e _]; by rewrite e eqxx in hm.
by rewrite -IH; case: (bcast_rev s t) => //= u; rewrite /eq_op /= /eq_op /= eqxx.
Qed.
Lemma bcastE s t : (bcast s t == Some s) = broadcasts t s.
Proof.
rewrite /bcast /broadcasts -(size_rev t) -(size_rev s) -bcast_revE.
case: (bcast_rev _ _) => //= u; rewrite -[s in LHS]revK /eq_op /=; exact: (inj_eq (can_inj revK)).
Qed.

Theorem C65_sum s (Xs : seq (tensor R)) : (forall X, List.In X Xs -> wf X) ->
  if all (fun X => broadcasts (tshape X) s) Xs
  then exists2 a, to_numpy (TSum s Xs) = Ok a & nshape a = s
  else to_numpy (TSum s Xs) = Err ValueError.
Proof.
move=> H /=; move: (zeros R s) (erefl : nshape (zeros R s) = s).
elim: Xs H => [|X Xs IH] H acc sa /=; first by exists acc.
have wX : wf X by apply: H; left.
have [a -> [_ sx _]] := to_numpyE wX; cbn [bind]; rewrite /iadd sa sx bcastE.
case hb: (broadcasts (tshape X) s) => //=.
have [D -> sD] : exists2 D, nadd acc a = Ok D & nshape D = s.
  by rewrite /nadd /elementwise sa sx; have := bcastE s (tshape X); rewrite hb => /eqP ->; eexists.
cbn [bind]; apply: IH => // Y h; by apply: H; right.
Qed.

End Malformed.

Print Assumptions C65_train.
Print Assumptions C65_cp.
Print Assumptions C65_tucker.
Print Assumptions C65_sum.

(* the claim that inconsistent cores are detected is false: cores of shapes (1,2,3) and (1,2,1) are
   accepted (the 1 is repeated), and so is a 3 x 2 core for factors of ranks 2 and 3 *)
Definition bad_train : seq (nd Z) := [:: arrZ [:: 1; 2; 3]%N [:: 1; 2; 3; 4; 5; 6]; arrZ [:: 1; 2; 1]%N [:: 1; 10]].
Definition bad_fs : seq (nd Z) := [:: arrZ [:: 2; 2]%N [:: 1; 0; 0; 1]; arrZ [:: 3; 3]%N [:: 1; 0; 0; 0; 1; 0; 0; 0; 1]].
Definition bad_core : nd Z := arrZ [:: 3; 2]%N [:: 1; 2; 3; 4; 5; 6].
Theorem C65_undetected_refuted :
  [/\ ~~ wf (TT bad_train), to_numpy (TT bad_train) = Ok (arrZ [:: 2; 2]%N [:: 6; 60; 15; 150]),
      ~~ wf (Tucker bad_fs bad_core) & to_numpy (Tucker bad_fs bad_core) = Ok (arrZ [:: 2; 3]%N [:: 1; 2; 3; 4; 5; 6])].
Proof. by vm_compute. Qed.

(* the Tucker tensor of the tutorial (scripts/tutorial.ipynb) has factors of ranks (3, 4, 2, 2, 3) and
   a core of the shape (7, 4, 9, 4, 12) of the tensor: the constructor takes it, to_numpy raises *)
Theorem C65_tutorial_refuted (R : comRingType) (fs : seq (nd R)) (core : nd R) : nwf core -> all (@nwf R) fs ->
  [seq nshape U | U <- fs] = [:: [:: 3; 7]; [:: 4; 4]; [:: 2; 9]; [:: 2; 4]; [:: 3; 12]]%N ->
  nshape core = [:: 7; 4; 9; 4; 12]%N -> to_numpy (Tucker fs core) = Err ValueError.
Proof.
move=> wc hf sf sc; have := @C65_tucker R fs core wc.
have e2 : all (fun U => nwf U && (size (nshape U) == 2%N)) fs.
  case: fs sf hf => [|A [|B [|C [|D [|E [|? ?]]]]]] //= [-> -> -> -> ->] /and5P[-> -> -> -> /andP[-> _]].
  by [].
move=> /(_ e2) /=; have -> : [seq dim U 0 | U <- fs] = [:: 3; 4; 2; 2; 3]%N.
  by case: fs sf {hf e2} => [|A [|B [|C [|D [|E [|? ?]]]]]] //= [h1 h2 h3 h4 h5]; rewrite /dim h1 h2 h3 h4 h5.
by rewrite sc; case: eqP => // h; move: (f_equal (fun n => n %% 5)%N h); vm_compute.
Qed.

(* Non-vacuity: all four theorems have cases on both sides *)
Example C65_nonvacuous :
  [/\ all (@proper Z 3) bad_train && joinable bad_train,
      all (@proper Z 3) (bad_train ++ bad_train) && ~~ joinable [:: nth (Nd [::] [::]) bad_train 0; nth (Nd [::] [::]) bad_train 0],
      all (@proper Z 2) bad_fs && ~~ all (fun C => (dim C 1 == 1%N) || (dim C 1 == max_rank bad_fs)) bad_fs,
      all (@proper Z 2) ex_cp && all (fun C => (dim C 1 == 1%N) || (dim C 1 == max_rank ex_cp)) ex_cp &
      broadcasts [:: 1; 3]%N [:: 2; 2; 3]%N && ~~ broadcasts [:: 2; 2]%N [:: 2; 3]%N].
Proof. by vm_compute. Qed.
Print Assumptions C65_undetected_refuted.
Print Assumptions C65_tutorial_refuted.
