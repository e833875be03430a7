(* trim_ranks / process_tt_rank (utils.py:121-175). *)
From mathcomp Require Import all_ssreflect all_algebra.
From mathcomp Require Import zify.
From Verif Require Import Py Nd NdThy Utils TensorThy2.
Set Implicit Arguments. Unset Strict Implicit. Unset Printing Implicit Defensive.

(* Feasibility, as the docstring of trim_ranks puts it: with 1s added at both ends,
   adjacent ranks differ at most by a factor of the size of the mode between them. *)
Definition feasible (dims r : seq nat) : Prop :=
  size r = (size dims).-1 /\
  forall i, i < size dims ->
    let R := 1 :: r ++ [:: 1] in
    nth 0 R i.+1 <= nth 0 R i * nth 0 dims i /\ nth 0 R i <= nth 0 dims i * nth 0 R i.+1.

(* componentwise order *)
Definition below (r r' : seq nat) : Prop := size r = size r' /\ forall i, nth 0 r i <= nth 0 r' i.

Section Trim.
Variable dims : seq nat.
Hypothesis dpos : all (fun n => 0 < n) dims.
Let d := size dims.
Let dm i := nth 0 dims i.

Lemma dm_pos i : i < d -> 0 < dm i.
Proof. by move=> Hi; apply: (allP dpos); rewrite mem_nth. Qed.

Lemma prods_pos s : all (fun n => 0 < n) s -> 0 < prods s.
Proof. by elim: s => [|n s IH] //= /andP[Hn /IH]; rewrite muln_gt0 Hn. Qed.

(* product of the sizes between bonds i and k *)
Definition P i k := prods (drop (minn i k) (take (maxn i k) dims)).

Lemma Pii i : P i i = 1.
Proof. clear dpos; by rewrite /P minnn maxnn drop_oversize // size_take; case: ltnP; lia. Qed.
Lemma PC i k : P i k = P k i. Proof. by rewrite /P minnC maxnC. Qed.
Lemma Ppos i k : 0 < P i k.
Proof.
apply: prods_pos; apply/allP => x /mem_drop /mem_take Hx; exact: (allP dpos).
Qed.
Lemma P_l i k : i < k -> k <= d -> P i k = dm i * P i.+1 k.
Proof.
move=> H1 H2; rewrite /P (minn_idPl (ltnW H1)) (maxn_idPr (ltnW H1)) (minn_idPl H1) (maxn_idPr H1).
rewrite (drop_nth 0) ?size_take_min ?(minn_idPl H2) //= nth_take //.
Qed.
Lemma P_r k i : k <= i -> i < d -> P i.+1 k = P i k * dm i.
Proof.
move=> H1 H2; rewrite /P (minn_idPr H1) (maxn_idPl H1) (minn_idPr (leqW H1)) (maxn_idPl (leqW H1)).
rewrite (take_nth 0) // -cats1 drop_cat size_take H2; case: ltnP => Hk.
  by rewrite prods_cat /= muln1.
have Eki : k = i by lia.
by rewrite Eki subnn drop0 [X in _ = prods X * _]drop_oversize ?size_take ?H2 // /= muln1 mul1n.
Qed.
Lemma P_up i k : i < d -> k <= d -> P i.+1 k <= P i k * dm i.
Proof.
move=> H1 H2; have H0 := dm_pos H1; case: (leqP k i) => Hk; first by rewrite P_r.
by rewrite (P_l Hk H2) mulnAC leq_pmull // muln_gt0 H0.
Qed.
Lemma P_dn i k : i < d -> k <= d -> P i k <= dm i * P i.+1 k.
Proof.
move=> H1 H2; have H0 := dm_pos H1; case: (leqP k i) => Hk; last by rewrite (P_l Hk H2).
by rewrite (P_r Hk H1) mulnCA leq_pmulr // muln_gt0 H0.
Qed.

(* the sweep as a fold over positions *)
Lemma zip_iota : zip (iota 0 d) dims = [seq (i, dm i) | i <- iota 0 d].
Proof.
rewrite -{1}(map_nth_iota 0 dims) -/d; elim: (iota 0 d) => [|x l IH] //=; by rewrite IH.
Qed.

Definition sw (j : nat) (r : seq nat) : seq nat * bool :=
  foldl trim_step (r, false) [seq (i, dm i) | i <- iota 0 j].

Lemma trim_sweepE r : trim_sweep dims r = sw d r.
Proof. by rewrite /trim_sweep -/d zip_iota. Qed.

Lemma swS j r : sw j.+1 r = trim_step (sw j r) (j, dm j).
Proof. by rewrite /sw iotaSr add0n map_rcons -cats1 foldl_cat. Qed.

(* one step of the sweep, extensionally *)
Lemma stepE r ch j : j.+1 < size r ->
  let r' := (trim_step (r, ch) (j, dm j)).1 in
  let x1 := minn (nth 0 r j.+1) (nth 0 r j * dm j) in
  [/\ size r' = size r,
      nth 0 r' j.+1 = x1,
      nth 0 r' j = minn (nth 0 r j) (dm j * x1) &
      forall i, i != j -> i != j.+1 -> nth 0 r' i = nth 0 r i].
Proof.
move=> Hj; rewrite /trim_step.
set a := nth 0 r j; set b := nth 0 r j.+1.
have key (r1 : seq nat) c1 : size r1 = size r -> nth 0 r1 j = a ->
    (forall i, i != j -> i != j.+1 -> nth 0 r1 i = nth 0 r i) ->
    let r' := (if nth 0 r1 j > dm j * nth 0 r1 j.+1
               then (set_nth 0 r1 j (dm j * nth 0 r1 j.+1), true) else (r1, c1)).1 in
    [/\ size r' = size r, nth 0 r' j.+1 = nth 0 r1 j.+1,
        nth 0 r' j = minn a (dm j * nth 0 r1 j.+1) &
        forall i, i != j -> i != j.+1 -> nth 0 r' i = nth 0 r i].
  move=> S1 E1 Eo; case: ifP => Hc /=; split.
  - by rewrite size_set_nth S1; apply/maxn_idPr; lia.
  - by rewrite nth_set_nth /= (_ : (j.+1 == j) = false) //; lia.
  - by rewrite nth_set_nth /= eqxx; lia.
  - by move=> i Hi Hi'; rewrite nth_set_nth /= (negbTE Hi) Eo.
  - by [].
  - by [].
  - by rewrite E1; lia.
  - exact: Eo.
rewrite -/a -/b; case: ifP => Hc.
  set r1 := set_nth _ _ _ _.
  have S1 : size r1 = size r by rewrite size_set_nth; apply/maxn_idPr; lia.
  have E1 : nth 0 r1 j = a by rewrite nth_set_nth /= (_ : (j == j.+1) = false) //; lia.
  have E2 : nth 0 r1 j.+1 = a * dm j by rewrite nth_set_nth /= eqxx.
  have Eo i : i != j -> i != j.+1 -> nth 0 r1 i = nth 0 r i.
    by move=> _ Hi; rewrite nth_set_nth /= (negbTE Hi).
  by have [A B C D] := key r1 true S1 E1 Eo; split=> //; rewrite ?C ?B E2 (minn_idPr (ltnW Hc)).
have Hba : b <= a * dm j by lia.
by have [A B C D] := key r ch erefl erefl (fun _ _ _ => erefl); split=> //;
   rewrite ?C ?B -/b (minn_idPl Hba).
Qed.

(* the changed flag: if it ends up false, every test was negative *)
Lemma step_changed r ch j : (trim_step (r, ch) (j, dm j)).2 = false ->
  [/\ ch = false, (trim_step (r, ch) (j, dm j)).1 = r,
      nth 0 r j.+1 <= nth 0 r j * dm j & nth 0 r j <= dm j * nth 0 r j.+1].
Proof.
rewrite /trim_step; case: ifP => H1; case: ifP => H2 //= ->; split=> //; lia.
Qed.

Lemma sw_changed j r : (sw j r).2 = false ->
  (sw j r).1 = r /\ forall i, i < j ->
    nth 0 r i.+1 <= nth 0 r i * dm i /\ nth 0 r i <= dm i * nth 0 r i.+1.
Proof.
elim: j => [|j IH] //; rewrite swS; case E: (sw j r) => [r1 ch] /step_changed[Hch -> H1 H2].
rewrite E /= in IH; have [Er Hi] := IH Hch; rewrite Er in H1 H2 *; split=> // i.
by rewrite ltnS leq_eqVlt => /orP[/eqP ->|/Hi].
Qed.

(* generic invariance principle *)
Lemma sw_inv (I : nat -> seq nat -> Prop) r : size r = d.+1 -> I 0 r ->
  (forall j r ch, j < d -> size r = d.+1 -> I j r -> I j.+1 (trim_step (r, ch) (j, dm j)).1) ->
  forall j, j <= d -> size (sw j r).1 = d.+1 /\ I j (sw j r).1.
Proof.
move=> Hr H0 HS; elim=> [|j IH] Hj //; have [S1 I1] := IH (ltnW Hj).
rewrite swS; case E: (sw j r) S1 I1 => [r1 ch] /= S1 I1; split; last exact: HS.
by have [] := @stepE r1 ch j; rewrite ?S1.
Qed.

(* ------- invariants over sweeps ------- *)
Variable r0 : seq nat.
Hypothesis r0size : size r0 = d.+1.
Hypothesis r0pos : forall i, i <= d -> 0 < nth 0 r0 i.
Let R0 i := nth 0 r0 i.

Definition bnd (r : seq nat) i k := nth 0 r i <= R0 k * P i k.

(* (a) upper bounds *)
Lemma sweep_upper s r : size r = d.+1 ->
  (forall i k, i <= k -> k <= i + s -> k <= d -> bnd r i k) ->
  let r' := (sw d r).1 in
  size r' = d.+1 /\ forall i k, i < d -> k <= i + s.+1 -> k <= d -> bnd r' i k.
Proof.
move=> Hr Hs.
pose I j (r : seq nat) :=
  [/\ forall i k, i < j -> k <= i + s.+1 -> k <= d -> bnd r i k,
      forall k, k <= j -> bnd r j k &
      forall i k, j <= i -> i <= k -> k <= i + s -> k <= d -> bnd r i k].
have [||S1 [I1 _ _]] := @sw_inv I r Hr _ _ d (leqnn _).
- split=> //; last by move=> i k _; apply: Hs.
  by move=> k; rewrite leqn0 => /eqP ->; apply: Hs.
- move=> j r1 ch Hj Sr1 [J1 J2 J3].
  have [|S2 E1 E2 E3] := @stepE r1 ch j; first by rewrite Sr1.
  move: (trim_step _ _).1 S2 E1 E2 E3 => r2 S2 E1 E2 E3.
  have B1 k : k <= j.+1 + s -> k <= d -> bnd r2 j.+1 k.
    move=> Hk Hkd; rewrite /bnd E1; case: (leqP k j) => Hkj.
      by rewrite (P_r Hkj Hj) mulnA; apply: leq_trans (geq_minr _ _) _; rewrite leq_mul2r; apply/orP; right; apply: J2.
    by have := J3 j.+1 k (leqnSn _) Hkj Hk Hkd; rewrite /bnd; lia.
  have B0 k : k <= j + s.+1 -> k <= d -> bnd r2 j k.
    move=> Hk Hkd; rewrite /bnd E2; case: (leqP k j) => Hkj.
      by have := J2 k Hkj; rewrite /bnd; lia.
    rewrite (P_l Hkj Hkd).
    apply: leq_trans (geq_minr _ _) _; rewrite mulnCA leq_mul2l; apply/orP; right.
    by apply: leq_trans (geq_minl _ _) _; apply: J3 => //; lia.
  split.
  - move=> i k; rewrite ltnS leq_eqVlt => /orP[/eqP ->|Hi] Hk Hkd; first exact: B0.
    by rewrite /bnd E3; [exact: J1|lia|lia].
  - by move=> k Hk; apply: B1; lia.
  move=> i k Hi Hik Hks Hkd; case: (altP (i =P j.+1)) => [E|Hne]; first by rewrite E; apply: B1; rewrite -?E.
  by rewrite /bnd E3; [apply: J3 => //; lia|lia|lia].
by split=> // i k Hi Hk Hkd; apply: I1.
Qed.

(* (b) every entry stays above some bound *)
Definition att (r : seq nat) i := exists2 k, k <= d & R0 k * P i k <= nth 0 r i.

Lemma sweep_att r : size r = d.+1 -> (forall i, i <= d -> att r i) ->
  forall i, i <= d -> att (sw d r).1 i.
Proof.
move=> Hr H0.
have [|S1 I1] := @sw_inv (fun _ r => forall i, i <= d -> att r i) r Hr H0 _ d (leqnn _); last exact: I1.
move=> j r1 ch Hj Sr1 J i Hi.
have [|S2 E1 E2 E3] := @stepE r1 ch j; first by rewrite Sr1.
have A1 : att (trim_step (r1, ch) (j, dm j)).1 j.+1.
  rewrite /att E1; case: (leqP (nth 0 r1 j.+1) (nth 0 r1 j * dm j)) => Hc.
    exact: J.
  have [k Hk Hb] := J j (ltnW Hj); exists k => //.
  apply: leq_trans (_ : R0 k * (P j k * dm j) <= _); first by rewrite leq_mul2l P_up ?orbT.
  by rewrite mulnA leq_mul2r Hb orbT.
case: (altP (i =P j.+1)) => [->|N1] //.
case: (altP (i =P j)) => [->|N2]; last by rewrite /att E3 //; apply: J.
rewrite /att E2 -E1; case: (leqP (nth 0 r1 j) (dm j * _)) => Hc; first exact: J (ltnW Hj).
have [k Hk Hb] := A1; exists k => //.
apply: leq_trans (_ : R0 k * (dm j * P j.+1 k) <= _); first by rewrite leq_mul2l P_dn ?orbT.
by rewrite mulnCA leq_mul2l Hb orbT.
Qed.

(* (c) entries only decrease *)
Lemma sweep_le r : size r = d.+1 -> forall i, nth 0 (sw d r).1 i <= nth 0 r i.
Proof.
move=> Hr; have [||_ I1] := @sw_inv (fun _ r' => forall i, nth 0 r' i <= nth 0 r i) r Hr _ _ d (leqnn _) => //.
move=> j r1 ch Hj Sr1 J i; have [|S2 E1 E2 E3] := @stepE r1 ch j; first by rewrite Sr1.
case: (altP (i =P j.+1)) => [->|N1]; first by rewrite E1; have := J j.+1; lia.
case: (altP (i =P j)) => [->|N2]; first by rewrite E2; have := J j; lia.
by rewrite E3.
Qed.

(* (d) entries stay above every feasible vector *)
Lemma sweep_ge v r : size r = d.+1 ->
  (forall i, i < d -> nth 0 v i.+1 <= nth 0 v i * dm i /\ nth 0 v i <= dm i * nth 0 v i.+1) ->
  (forall i, i <= d -> nth 0 v i <= nth 0 r i) -> forall i, i <= d -> nth 0 v i <= nth 0 (sw d r).1 i.
Proof.
move=> Hr Hv H0.
have [|_ I1] := @sw_inv (fun _ r' => forall i, i <= d -> nth 0 v i <= nth 0 r' i) r Hr H0 _ d (leqnn _); last exact: I1.
move=> j r1 ch Hj Sr1 J i Hi; have [|S2 E1 E2 E3] := @stepE r1 ch j; first by rewrite Sr1.
have [V1 V2] := Hv j Hj.
have A1 : nth 0 v j.+1 <= minn (nth 0 r1 j.+1) (nth 0 r1 j * dm j).
  rewrite leq_min J //=; apply: leq_trans V1 _; rewrite leq_mul2r J ?orbT //; exact: ltnW.
case: (altP (i =P j.+1)) => [->|N1]; first by rewrite E1.
case: (altP (i =P j)) => [->|N2]; last by rewrite E3 // J.
rewrite E2 leq_min J ?(ltnW Hj) //=; apply: leq_trans V2 _.
by rewrite leq_mul2l A1 orbT.
Qed.

Hypothesis r00 : R0 0 = 1.
Hypothesis r0d : R0 d = 1.
Hypothesis r0end : forall i, i <= d -> R0 i <= P i d.

Definition U s (r : seq nat) := forall i k, i < d -> k <= d -> (i <= k) || (0 < s) -> k <= i + s -> bnd r i k.
Definition pairs_ok (r : seq nat) := forall i, i < d ->
  nth 0 r i.+1 <= nth 0 r i * dm i /\ nth 0 r i <= dm i * nth 0 r i.+1.

Lemma loopE n s r : size r = d.+1 -> (forall i, nth 0 r i <= R0 i) -> (forall i, i <= d -> att r i) ->
  U s r ->
  let r' := trim_loop n dims r in
  [/\ size r' = d.+1, forall i, nth 0 r' i <= R0 i, forall i, i <= d -> att r' i &
      pairs_ok r' \/ U (s + n) r'].
Proof.
elim: n s r => [|n IH] s r Sr Hle Ha HU /=; first by rewrite addn0; split=> //; right.
rewrite trim_sweepE.
have Hle' i : nth 0 (sw d r).1 i <= R0 i by apply: leq_trans (sweep_le Sr i) (Hle i).
have Ha' := sweep_att Sr Ha.
have [|Sr' HU'] := @sweep_upper s r Sr.
  move=> i k H1 H2 Hk; case: (ltnP i d) => Hi; first by apply: HU; rewrite ?H1.
  have Ek : k = d by lia.
  have Ei : i = d by lia.
  by rewrite /bnd Ek Ei Pii muln1.
case E: (sw d r) Hle' Ha' Sr' HU' => [r1 [|]] /= Hle' Ha' Sr' HU'.
  rewrite -addSnnS; apply: IH => //.
  by move=> i k Hi Hk _ Hks; apply: HU'.
have [Er Hp] : (sw d r).1 = r /\ _ := @sw_changed d r (congr1 snd E).
rewrite E /= in Er; rewrite Er in Hle' Ha' Sr' *; split=> //; by left.
Qed.

Lemma U_pairs r s : (forall i, nth 0 r i <= R0 i) -> (forall i, i <= d -> att r i) -> U s r ->
  0 < s -> d <= s.+2 -> pairs_ok r.
Proof.
move=> Hle Ha HU Hs Hd.
have Rp k : k <= d -> 0 < R0 k by apply: r0pos.
have B i k : i <= d -> k <= d -> bnd r i k.
  move=> Hi Hk; rewrite /bnd; case: (posnP i) => [->|Hi0].
    by apply: leq_trans (Hle 0) _; rewrite r00 muln_gt0 Rp // Ppos.
  case: (ltnP i d) => Hid; last first.
    have -> : i = d by lia.
    by apply: leq_trans (Hle d) _; rewrite r0d muln_gt0 Rp // Ppos.
  case: (ltnP k d) => Hkd; first by apply: HU => //; lia.
  have -> : k = d by lia.
  by rewrite r0d mul1n; apply: leq_trans (Hle i) (r0end Hi).
move=> i Hi; split.
  have [k Hk Hb] := Ha i (ltnW Hi); apply: leq_trans (B i.+1 k Hi Hk) _.
  apply: leq_trans (_ : R0 k * (P i k * dm i) <= _); first by rewrite leq_mul2l P_up ?orbT.
  by rewrite mulnA leq_mul2r Hb orbT.
have [k Hk Hb] := Ha i.+1 Hi; apply: leq_trans (B i k (ltnW Hi) Hk) _.
apply: leq_trans (_ : R0 k * (dm i * P i.+1 k) <= _); first by rewrite leq_mul2l P_dn ?orbT.
by rewrite mulnCA leq_mul2l Hb orbT.
Qed.

Lemma loop_ge n v r : size r = d.+1 -> pairs_ok v -> (forall i, i <= d -> nth 0 v i <= nth 0 r i) ->
  forall i, i <= d -> nth 0 v i <= nth 0 (trim_loop n dims r) i.
Proof.
elim: n r => [|n IH] r Sr Hv H0 //=; rewrite trim_sweepE.
have H1 := sweep_ge Sr Hv H0.
have S1 : size (sw d r).1 = d.+1 by have [] := @sw_inv (fun _ _ => True) r Sr I (fun _ _ _ _ _ _ => I) d (leqnn _).
by case: (sw d r) H1 S1 => r1 [|] //= H1 S1; apply: IH.
Qed.
End Trim.

Lemma size_trim_init dims ranks : size (trim_init dims ranks) = size ranks.
Proof. by rewrite size_map size_iota. Qed.

Lemma aug_split (r : seq nat) d : size r = d.+2 -> nth 0 r 0 = 1 -> nth 0 r d.+1 = 1 ->
  r = 1 :: behead (take (size r).-1 r) ++ [:: 1].
Proof.
case: r => [|x r] // [Hs] /= ->; case/lastP: r Hs => [|r y] //; rewrite size_rcons => -[Hs].
by rewrite nth_rcons Hs ltnn eqxx => -> /=; rewrite -cats1 take_size_cat.
Qed.

Lemma feas_pairs dims v : feasible dims v -> forall i, i < size dims ->
    nth 0 (1 :: v ++ [:: 1]) i.+1 <= nth 0 (1 :: v ++ [:: 1]) i * nth 0 dims i /\
    nth 0 (1 :: v ++ [:: 1]) i <= nth 0 dims i * nth 0 (1 :: v ++ [:: 1]) i.+1.
Proof. by case. Qed.

(* a feasible vector is below both products of sizes *)
Lemma feas_left dims v : feasible dims v -> 0 < size dims -> forall i, i <= size dims ->
  nth 0 (1 :: v ++ [:: 1]) i <= prods (take i dims).
Proof.
move=> [_ H] _; elim=> [|i IH] Hi; first by rewrite take0.
apply: leq_trans (H i Hi).1 _; rewrite (take_nth 0) // -cats1 prods_cat /= muln1.
by rewrite leq_mul2r IH ?orbT // ltnW.
Qed.

Lemma feas_right dims v : feasible dims v -> 0 < size dims -> forall i, i <= size dims ->
  nth 0 (1 :: v ++ [:: 1]) i <= prods (drop i dims).
Proof.
move=> [S H] Hd i Hi; rewrite -(subKn Hi); move: (size dims - i) (leq_subr i (size dims)) => k {i Hi}.
elim: k => [|k IH] Hk.
  by rewrite subn0 drop_size -(prednK Hd) -S /= nth_cat ltnn subnn.
have Hlt : size dims - k.+1 < size dims by lia.
have E : (size dims - k.+1).+1 = size dims - k by lia.
apply: leq_trans (H _ Hlt).2 _; rewrite (drop_nth 0) // prods_cons E leq_mul2l IH ?orbT //; lia.
Qed.

Lemma prods_gt0 s : all (fun n => 0 < n) s -> 0 < prods s. Proof. exact: prods_pos. Qed.

Section TrimMain.
Variables dims ranks : seq nat.
Hypothesis dpos : all (fun n => 0 < n) dims.
Hypothesis rpos : all (fun n => 0 < n) ranks.
Hypothesis d0 : 0 < size dims.
Hypothesis rs : size ranks = (size dims).-1.

Let d := size dims.
Let r0 := 1 :: trim_init dims ranks ++ [:: 1].

Lemma r0_size : size r0 = d.+1.
Proof. by rewrite /r0 /= size_cat size_trim_init /= addn1 rs prednK. Qed.

Lemma r0_mid i : 0 < i -> i < d ->
  nth 0 r0 i = minn (nth 0 ranks i.-1) (minn (prods (take i dims)) (prods (drop i dims))).
Proof.
case: i => // i _ Hi; have Hi' : i < size ranks by rewrite rs; move: Hi; rewrite -/d; lia.
rewrite /r0 /= nth_cat size_trim_init Hi' (nth_map 0) ?size_iota // nth_iota //.
Qed.

Lemma r0_last : nth 0 r0 d = 1.
Proof.
have -> : d = (size (trim_init dims ranks)).+1 by rewrite size_trim_init rs prednK.
by rewrite /r0 /= nth_cat ltnn subnn.
Qed.

Lemma all_sub_take k : all (fun n => 0 < n) (take k dims).
Proof. by apply/allP => x /mem_take; apply: (allP dpos). Qed.
Lemma all_sub_drop k : all (fun n => 0 < n) (drop k dims).
Proof. by apply/allP => x /mem_drop; apply: (allP dpos). Qed.

Lemma r0_pos i : i <= d -> 0 < nth 0 r0 i.
Proof.
case: (posnP i) => [->|Hi] //; rewrite leq_eqVlt => /orP[/eqP ->|Hd]; first by rewrite r0_last.
rewrite r0_mid // !leq_min !prods_pos ?all_sub_take ?all_sub_drop // !andbT.
by apply: (allP rpos); rewrite mem_nth // rs; move: Hd; rewrite /d; lia.
Qed.

Lemma r0_end i : i <= d -> nth 0 r0 i <= P dims i d.
Proof.
move=> Hid; rewrite /P (minn_idPl Hid) (maxn_idPr Hid) take_size.
case: (posnP i) => [->|Hi]; first by rewrite prods_pos ?all_sub_drop.
move: Hid; rewrite leq_eqVlt => /orP[/eqP ->|Hd]; first by rewrite r0_last drop_size.
by rewrite r0_mid //; lia.
Qed.

Let r' := trim_loop 100 dims r0.

Lemma trim_core : [/\ size r' = d.+1, (forall i, nth 0 r' i <= nth 0 r0 i),
   nth 0 r' 0 = 1, nth 0 r' d = 1 & (forall i, i <= d -> 0 < nth 0 r' i) /\
   (d <= 102 -> pairs_ok dims r')].
Proof.
have Ha i : i <= d -> att dims r0 r0 i by move=> Hi; exists i => //; rewrite Pii ?muln1 ?leqnn.
have HU : U dims r0 0 r0.
  move=> i k Hi Hk; rewrite orbF addn0 => H1 H2.
  have -> : k = i by lia.
  by rewrite /bnd Pii muln1.
have R00 : nth 0 r0 0 = 1 by [].
have [S1 L1 A1 F1] := @loopE dims dpos r0 r0_size R00 r0_last 100 0 r0 r0_size (fun i => leqnn _) Ha HU.
have Hpos i : i <= d -> 0 < nth 0 r' i.
  move=> Hi; have [k Hk Hb] := A1 i Hi; apply: leq_trans Hb.
  by rewrite muln_gt0 r0_pos // Ppos.
split=> //.
- by apply/eqP; rewrite eqn_leq Hpos // andbT; apply: leq_trans (L1 0) _.
- by apply/eqP; rewrite eqn_leq Hpos // andbT; apply: leq_trans (L1 d) _; rewrite r0_last.
split=> // Hd; case: F1 => // HU'.
exact: (@U_pairs dims dpos r0 r0_size r0_pos R00 r0_last r0_end r' (0 + 100)).
Qed.

Lemma trim_aug : 1 :: trim_ranks dims ranks ++ [:: 1] = r'.
Proof.
have [S1 _ E0 Ed _] := trim_core; symmetry; apply: (@aug_split _ d.-1) => //.
  by rewrite S1 prednK.
by rewrite prednK.
Qed.

Lemma size_trim_ranks : size (trim_ranks dims ranks) = size ranks.
Proof.
have := congr1 size trim_aug; have [-> _ _ _ _] := trim_core.
rewrite /= size_cat /= addn1 rs => -[H]; move: H; rewrite -/d; lia.
Qed.

Lemma nth_trim i : i < size ranks -> nth 0 (trim_ranks dims ranks) i = nth 0 r' i.+1.
Proof. by move=> Hi; rewrite -trim_aug /= nth_cat size_trim_ranks Hi. Qed.

Lemma trim_below : below (trim_ranks dims ranks) ranks.
Proof.
split; first exact: size_trim_ranks.
move=> i; case: (ltnP i (size ranks)) => Hi; last by rewrite nth_default ?size_trim_ranks.
rewrite nth_trim //; have [_ L1 _ _ _] := trim_core; apply: leq_trans (L1 _) _.
by rewrite r0_mid ?geq_minl //; move: Hi; rewrite rs -/d; lia.
Qed.

Lemma trim_pos : all (fun n => 0 < n) (trim_ranks dims ranks).
Proof.
apply/(all_nthP 0) => i; rewrite size_trim_ranks => Hi; rewrite nth_trim //.
by have [_ _ _ _ [-> //]] := trim_core; move: Hi; rewrite rs -/d; lia.
Qed.

Lemma trim_feasible : d <= 102 -> feasible dims (trim_ranks dims ranks).
Proof.
move=> Hd; have [_ _ _ _ [_ HP]] := trim_core; split; first by rewrite size_trim_ranks rs.
by move=> i Hi R; rewrite /R trim_aug; apply: HP.
Qed.

Lemma trim_greatest v : feasible dims v -> below v ranks -> below v (trim_ranks dims ranks).
Proof.
move=> Hf [Hs Hb]; split; first by rewrite size_trim_ranks Hs.
move=> i; case: (ltnP i (size v)) => Hi; last by rewrite nth_default.
have Hid : i.+1 < d by move: Hi; rewrite Hs rs -/d; lia.
rewrite nth_trim -?Hs //.
have -> : nth 0 v i = nth 0 (1 :: v ++ [:: 1]) i.+1 by rewrite /= nth_cat Hi.
apply: loop_ge (ltnW Hid) => //; [exact: r0_size|exact: feas_pairs|].
move=> {i Hi Hid}i Hi; case: (posnP i) => [->|Hi0] //.
move: Hi; rewrite leq_eqVlt => /orP[/eqP ->|Hid].
  rewrite r0_last; have := feas_right Hf d0 (leqnn _); by rewrite drop_size.
rewrite r0_mid // !leq_min feas_left ?feas_right ?(ltnW Hid) // !andbT.
have Hi' : i.-1 < size v by move: Hid; rewrite Hs rs -/d; lia.
by rewrite -{1}(prednK Hi0) /= nth_cat Hi'.
Qed.
End TrimMain.

Lemma below_anti r1 r2 : below r1 r2 -> below r2 r1 -> r1 = r2.
Proof.
move=> [Hs H1] [_ H2]; apply: (@eq_from_nth _ 0) => // i _.
by apply/eqP; rewrite eqn_leq H1 H2.
Qed.

Lemma trim_idem dims ranks : all (fun n => 0 < n) dims -> all (fun n => 0 < n) ranks ->
  0 < size dims -> size ranks = (size dims).-1 -> size dims <= 102 ->
  trim_ranks dims (trim_ranks dims ranks) = trim_ranks dims ranks.
Proof.
move=> H1 H2 H3 H4 H5.
have P' := trim_pos H1 H2 H3 H4; have S' := size_trim_ranks H1 H2 H3 H4.
apply: below_anti; first by apply: trim_below => //; rewrite S'.
apply: trim_greatest => //; rewrite ?S' //.
by apply: trim_feasible.
Qed.

Lemma trim_main dims ranks : all (fun n => 0 < n) dims -> all (fun n => 0 < n) ranks ->
  0 < size dims -> size ranks = (size dims).-1 -> size dims <= 102 ->
  [/\ feasible dims (trim_ranks dims ranks),
      below (trim_ranks dims ranks) ranks,
      (forall v, feasible dims v -> below v ranks -> below v (trim_ranks dims ranks)) &
      trim_ranks dims (trim_ranks dims ranks) = trim_ranks dims ranks].
Proof.
move=> H1 H2 H3 H4 H5; split; [exact: trim_feasible|exact: trim_below|exact: trim_greatest|exact: trim_idem].
Qed.

Lemma trim_bounds dims ranks : all (fun n => 0 < n) dims -> all (fun n => 0 < n) ranks ->
  0 < size dims -> size ranks = (size dims).-1 ->
  [/\ size (trim_ranks dims ranks) = size ranks, all (fun n => 0 < n) (trim_ranks dims ranks),
      below (trim_ranks dims ranks) ranks &
      forall v, feasible dims v -> below v ranks -> below v (trim_ranks dims ranks)].
Proof.
move=> H1 H2 H3 H4; split; [exact: size_trim_ranks|exact: trim_pos|exact: trim_below|exact: trim_greatest].
Qed.

Lemma process_int r (shape : seq nat) : 0 < size shape ->
  exists2 rk, process_tt_rank (RInt r) shape false = Ok rk &
    size rk = (size shape).-1 /\ forall i, i < size rk -> nth 0 rk i = r.
Proof.
move=> Hs; rewrite /process_tt_rank size_nseq eqxx eqn0Ngt Hs /=; eexists; first by [].
by rewrite size_nseq; split=> // i Hi; rewrite nth_nseq Hi.
Qed.

Lemma process_tuple (rs shape : seq nat) (trim : bool) : 0 < size shape ->
  process_tt_rank (RTuple rs) shape trim =
    if size rs == (size shape).-1
    then Ok (if trim then trim_ranks shape rs else rs) else Err ValueError.
Proof. by move=> Hs; rewrite /process_tt_rank eqn0Ngt Hs /=; case: eqP. Qed.

Lemma process_trim (rank : ttrank) (shape rk rk' : seq nat) :
  all (fun n => 0 < n) shape ->
  process_tt_rank rank shape false = Ok rk -> all (fun n => 0 < n) rk ->
  process_tt_rank rank shape true = Ok rk' ->
  [/\ rk' = trim_ranks shape rk, size rk' = (size shape).-1,
      all (fun n => 0 < n) rk' & below rk' rk].
Proof.
move=> Hsh; rewrite /process_tt_rank; set t := match rank with RInt _ => _ | RTuple _ => _ end.
case: ifP => // /negbT; rewrite negb_or negbK => /andP[H0 /eqP H1] [<-] Hp [<-].
have Hs : 0 < size shape by rewrite lt0n.
by have [A B C D] := trim_bounds Hsh Hp Hs H1; split=> //; rewrite A.
Qed.

(* size and upper bound without positivity of the request *)
Lemma loop_le dims n (r : seq nat) : all (fun n => 0 < n) dims -> size r = (size dims).+1 ->
  size (trim_loop n dims r) = (size dims).+1 /\ forall i, nth 0 (trim_loop n dims r) i <= nth 0 r i.
Proof.
move=> dp; elim: n r => [|n IH] r sr //=; rewrite trim_sweepE.
have S1 : size (sw dims (size dims) r).1 = (size dims).+1.
  by have [] := @sw_inv dims dp (fun _ _ => True) r sr I (fun _ _ _ _ _ _ => I) (size dims) (leqnn _).
have L1 := sweep_le dp sr sr.
case: (sw dims (size dims) r) S1 L1 => [r1 []] /= S1 L1; last by split.
have [S2 L2] := IH r1 S1; split=> // i; exact: leq_trans (L2 i) (L1 i).
Qed.

Lemma trim_le dims ranks : all (fun n => 0 < n) dims -> 0 < size dims ->
  size ranks = (size dims).-1 -> below (trim_ranks dims ranks) ranks.
Proof.
move=> dp d0 rs; rewrite /trim_ranks; set r := 1 :: _.
have sr : size r = (size dims).+1 by rewrite /r /= size_cat size_trim_init rs /= addn1 prednK.
have [S1 L1] := loop_le 100 dp sr.
split; first by rewrite size_behead size_takel S1 //= rs.
move=> i; rewrite nth_behead; case: (ltnP i (size ranks)) => hi; last first.
  by rewrite nth_default // size_takel S1 //= ; lia.
rewrite nth_take ?S1 //=; last by lia.
apply: leq_trans (L1 _) _; rewrite /r /= nth_cat size_trim_init hi.
by rewrite /trim_init (nth_map 0) ?size_iota // nth_iota // geq_minl.
Qed.
