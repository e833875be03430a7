(* Refinement, continued: scaling, addition, to_numpy, to_sparse, split, add. *)
From mathcomp Require Import all_ssreflect all_algebra.
From mathcomp.zify Require Import zify.
From Verif Require Import Py Nd Utils Tensor NdThy Heap HeapSpec HeapThy1 HeapThy2.
Set Implicit Arguments. Unset Strict Implicit. Unset Printing Implicit Defensive.
Import GRing.Theory.
Local Open Scope ring_scope.

Arguments refs : simpl never.
Section Thy.
Variable R : comRingType.
Notation arr := (nd R).
Notation tensor := (tensor R).
Notation heap := (heap R).
Implicit Types (h : heap) (v : view) (o : nat).

Lemma new_arrE h (a : arr) : new_arr h a = ((new_arr h a).1, (new_arr h a).2).
Proof. by []. Qed.

Lemma new_denseE n h v a : rd h v = Some a -> refs n.+1 h (Ok (new_obj h (ODense v))) (Ok (Dense a)).
Proof. by move=> E; apply: new_objE; rewrite /= at_rcons (rd_ext (ext_obj _ _) E). Qed.
Lemma new_sparseE n h s i v d : rd h v = Some (Nd [:: size d] d) ->
  refs n.+1 h (Ok (new_obj h (OSparse s i v))) (Ok (Sparse s i d)).
Proof. by move=> E; apply: new_objE; rewrite /= at_rcons (rd_ext (ext_obj _ _) E) /= eqxx. Qed.

Lemma caches_arrs h l : caches (new_arrs h l).1 = caches h.
Proof.
elim: l h => [|y ys IHy] h' //=; case E: (new_arrs _ _) => [h2 ws] /=.
by rewrite -[h2]/((h2, ws).1) -E IHy.
Qed.

Lemma op_mulE n c h o X : val n h o = Some X -> refs n h (op_mul n c h o) (tmul X c).
Proof.
elim: n h o X => [|n IH] h o X // /val_inv.
case: X => [a|s i d|cs|cs|fs co|s Xs].
- case=> v [Eo Ev]; rewrite /op_mul Eo /= Ev /=.
  apply: (refs_ext (ext_arr h (nscale c a))) => //; apply: new_denseE.
  by apply: rd_new; apply: nwf_tab.
- case=> v [Eo Ev]; rewrite /op_mul Eo /= Ev /=.
  pose b := Nd [:: size d] [seq e * c | e <- d]; have Wb : nwf b by rewrite /nwf /= size_map muln1.
  apply: (refs_ext (ext_arr h b)) => //; apply: new_sparseE.
  have := rd_new h Wb; by rewrite /b /= size_map.
- case=> l [vs [Eo El Er]]; rewrite /op_mul Eo /= El /= Er /=.
  case Ec: (rev cs) => [|C r] //=.
  set ds := rev (_ :: r); case Ea: (new_arrs h ds) => [h1 vs'].
  have Wd : all (@nwf R) ds.
    rewrite /ds all_rev /= nwf_tab /=; have := rds_wf Er; by rewrite -all_rev Ec /= => /andP [].
  have X1 : ext h h1 by have := ext_arrs h ds; rewrite Ea.
  have := rds_new h Wd; rewrite Ea /= => Ed.
  have Ch : caches h1 = caches h by rewrite -(caches_arrs h ds) Ea.
  apply: (refs_ext (ext_trans X1 (ext_alist h1 vs'))) => //.
  apply: (@new_ttE _ n _ _ vs'); first by rewrite /= at_rcons.
  exact: rds_ext (ext_alist _ _) Ed.
- case=> l [vs [C0 [r [Eo El Er E]]]]; rewrite /op_mul Eo /= El /= E.
  have Es := opts_size Er; move: Er Es; rewrite E size_map; case: vs El => [|v0 vs] El //= Er _.
  move: Er; rewrite /rds /=; case Ev: (rd h v0) => [D|] //; case Eo': (opts _) => [r'|] // [ED Er'].
  rewrite {}ED {}Er' in Ev Eo' *; rewrite /=.
  set b := nscale c C0; set h1 := (new_arr h b).1.
  have X1 : ext h h1 := ext_arr h b.
  have Wb : nwf b := nwf_tab _ _.
  rewrite -[set_bufs _ _]/h1.
  apply: (refs_ext (ext_trans X1 (ext_alist h1 ((new_arr h b).2 :: vs)))) => //.
  apply: (@new_cpE _ n _ _ ((new_arr h b).2 :: vs)); first by rewrite /= at_rcons.
  have E1 := rd_ext (ext_alist h1 ((new_arr h b).2 :: vs)) (rd_new h Wb).
  have E2 : opts (map (rd (new_alist h1 ((new_arr h b).2 :: vs)).1) vs) = Some r.
    exact: (rds_ext (ext_trans X1 (ext_alist h1 _)) Eo').
  by move: E1 E2; rewrite /rds /= => -> ->.
- case=> l [vs [v [Eo El Er Ev]]]; rewrite /op_mul Eo /= Ev /=.
  set b := nscale c co; set h1 := (new_arr h b).1.
  have X1 : ext h h1 := ext_arr h b.
  have Wb : nwf b := nwf_tab _ _.
  apply: (refs_ext X1) => //; apply: (@new_tuckerE _ n h1 l vs) => //; first exact: rds_ext X1 Er.
  exact: rd_new.
- case=> l [os [Eo El V]]; rewrite tmul_sum /= Eo /= El /=.
  have := @mapHE _ n _ (op_mul n c) (fun X => tmul X c) h os (val n) Xs (fun h1 h2 a X E => val_ext E) IH V.
  case: (mapM _ Xs) => [Ys|e] /=; last by move=> ->.
  case=> h' [os' [-> X' C' V']] /=; apply: (refs_ext X') => //; exact: sum_ofE.
Qed.

Lemma op_mul_listE n cs h o s Xs : val n.+1 h o = Some (TSum s Xs) ->
  refs n.+1 h (op_mul_list n cs h o) (sum_mul_list Xs cs).
Proof.
move=> /val_inv [l [os [Eo El V]]]; rewrite /op_mul_list /sum_mul_list Eo /= El /=.
rewrite (opts_size V) size_map; case: eqP => // Es.
have EX : mapM (fun p => tmul p.1 p.2) (zip Xs cs) = mapM id [seq tmul p.1 p.2 | p <- zip Xs cs].
  by elim: (zip _ _) => [|p l' IH] //=; rewrite IH.
suff : (match mapM (fun p => tmul p.1 p.2) (zip Xs cs) with
  | Ok Ys => exists h' os', [/\ mapH (fun h p => op_mul n p.2 h p.1) h (zip os cs) = Ok (h', os'),
       ext h h', caches h' = caches h & opts (map (val n h') os') = Some Ys]
  | Err e => mapH (fun h p => op_mul n p.2 h p.1) h (zip os cs) = Err e
  end : Prop).
  case: (mapM _ (zip Xs cs)) => [Ys|e] /=; last by move=> ->.
  by case=> h' [os' [-> X' C' V']] /=; apply: (refs_ext X') => //; exact: sum_ofE.
clear El EX; elim: os cs h Xs V {l Eo} Es => [|o' os IH] [|c cs] h Xs //= V Es.
  by move: V => [<-] /=; exists h, [::]; split=> //; apply: ext_refl.
move: V; case E: (val n h o') => [X|] //; case E': (opts _) => [r|] // [<-] /=.
have := op_mulE c E; rewrite /refs; case: (tmul X c) => [Y|e] /=; last by move=> ->.
case=> h1 [o1 [-> X1 C1 V1]] /=; case: Es => Es.
have := IH _ h1 r (opts_imp (fun b a => @val_ext _ n h h1 b a X1) E') Es.
case: (mapM _ (zip r cs)) => [Ys|e] /=; last by move=> ->.
case=> h2 [os2 [-> X2 C2 V2]] /=; exists h2, (o1 :: os2); split=> //.
- exact: ext_trans X1 X2.
- by rewrite C2.
- by rewrite /= V2 (val_ext X2 V1).
Qed.

Definition is_sum (x : obj) : bool := if x is OSum _ _ then true else false.
Definition tis_sum (X : tensor) : bool := if X is TSum _ _ then true else false.

Lemma val_sum n h o X x : val n h o = Some X -> at_ (objs h) o = Some x -> is_sum x = tis_sum X.
Proof.
case: n => [|n] // /val_inv; case: X => [a|s i d|cs|cs|fs co|s Xs].
- by case=> v [-> _] [<-].
- by case=> v [-> _] [<-].
- by case=> l [vs [-> _ _]] [<-].
- by case=> l [vs [C0 [r [-> _ _ _]]]] [<-].
- by case=> l [vs [v [-> _ _ _]]] [<-].
- by case=> l [os [-> _ _]] [<-].
Qed.

Lemma val_at n h o X : val n h o = Some X -> exists x, at_ (objs h) o = Some x.
Proof. by case: n => [|n] //=; case: (at_ _ o) => [x|] // _; exists x. Qed.

(* the summands contributed by an operand of + *)
Definition parts (X : tensor) : seq tensor := if X is TSum _ xs then xs else [:: X].
Lemma taddE (X Y : tensor) : tadd X Y = mk_sum (parts X ++ parts Y).
Proof. by case: X => *; case: Y => * //=; rewrite -?cats1. Qed.

Definition oparts h o : res (seq nat) :=
  do x <- deref (at_ (objs h) o);
  match x with OSum _ l => deref (at_ (tlists h) l) | _ => Ok [:: o] end.

Lemma oparts_val n h o X : val n h o = Some X -> exists os, oparts h o = Ok os /\
  opts (map (val n h) os) = Some (parts X).
Proof.
move=> V; case: n V => [|n] // V.
have V1 : opts (map (val n.+1 h) [:: o]) = Some [:: X].
  by apply/optsP; exact: (congr1 (fun t => [:: t]) V).
have := val_inv V; rewrite /oparts; case: X V V1 => [a|s i d|cs|cs|fs co|s Xs] V V1.
- by case=> v [-> _] /=; exists [:: o].
- by case=> v [-> _] /=; exists [:: o].
- by case=> l [vs [-> _ _]] /=; exists [:: o].
- by case=> l [vs [C0 [r [-> _ _ _]]]] /=; exists [:: o].
- by case=> l [vs [v [-> _ _ _]]] /=; exists [:: o].
- case=> l [os [Eo El V']]; rewrite Eo /= El /=; exists os; split=> //.
  exact: (opts_imp (fun b a => @val_mono _ n n.+1 h b a (leqnSn n)) V').
Qed.

Lemma op_addE' h o1 o2 os1 os2 : oparts h o1 = Ok os1 -> oparts h o2 = Ok os2 ->
  op_add h o1 o2 = sum_of h (os1 ++ os2).
Proof.
rewrite /oparts /op_add; case: (at_ _ o1) => [x|] //=; case: (at_ _ o2) => [y|] //=.
case: x => [?|???|???|???|????|??]; case: y => [?|???|???|???|????|??] /=.
all: try by case=> <- [<-].
all: try by case=> <-; case: (at_ _ _) => [ys|] //= [<-].
all: try by case: (at_ _ _) => [xs|] //= [<-] [<-]; rewrite cats1.
by case: (at_ _ _) => [xs|] //= [<-]; case: (at_ _ _) => [ys|] //= [<-].
Qed.

Lemma op_addE n h o1 o2 X Y : val n h o1 = Some X -> val n h o2 = Some Y ->
  refs n.+1 h (op_add h o1 o2) (tadd X Y).
Proof.
move=> /oparts_val [os1 [E1 V1]] /oparts_val [os2 [E2 V2]].
rewrite (op_addE' E1 E2) taddE; apply: sum_ofE; rewrite map_cat; exact: opts_cat.
Qed.

Lemma op_subE n h o1 o2 X Y : val n h o1 = Some X -> val n h o2 = Some Y ->
  refs n.+1 h (op_sub n h o1 o2) (tsub X Y).
Proof.
move=> V1 V2; rewrite /op_sub /tsub /op_neg /tneg.
have := op_mulE (-1) V2; rewrite {1}/refs; case: (tmul Y _) => [Z|e] /=; last by move=> ->.
case=> h1 [o3 [-> X1 C1 V3]] /=; apply: (refs_ext X1 C1); apply: op_addE V3; exact: val_ext X1 V1.
Qed.

(* ------------------------------------------------------------------ *)
Definition refv h (r : res (heap * view)) (q : res arr) : Prop :=
  match q with
  | Ok a => exists h' v, [/\ r = Ok (h', v), ext h h', caches h' = caches h & rd h' v = Some a]
  | Err e => r = Err e
  end.

Lemma einsum_wf spec (ops : seq arr) a : einsum spec ops = Ok a -> nwf a.
Proof.
rewrite /einsum /einsum_lbl; case: ifP => // _; case: (foldM _ _ _) => [dims|] //=.
by case: ifP => // _ [<-]; apply: nwf_tab.
Qed.
Lemma reshape_wf (a b : arr) s : nwf a -> reshape a s = Ok b -> nwf b.
Proof. by rewrite /reshape /nwf => /eqP W; case: eqP => // E [<-] /=; rewrite W E. Qed.
Lemma ell_wf spec (a b c : arr) : einsum_ell spec a b = Ok c -> nwf c.
Proof.
rewrite /einsum_ell; case: (reshape a _) => [a2|] //=; case E: (einsum _ _) => [d|] //= H.
exact: reshape_wf (einsum_wf E) H.
Qed.
Lemma foldM_inv (A S : Type) (P : S -> Prop) (f : S -> A -> res S) l s s' :
  (forall s a s', P s -> f s a = Ok s' -> P s') -> P s -> foldM f s l = Ok s' -> P s'.
Proof.
move=> H; elim: l s => [|x l IH] s /= Ps; first by case=> <-.
by case E: (f s x) => [s1|] //= E'; apply: IH E'; apply: H Ps E.
Qed.
Lemma sparse_wf s inds (d : seq R) a : sparse_to_numpy s inds d = Ok a -> nwf a.
Proof.
rewrite /sparse_to_numpy; case: ifP => // _; apply: (foldM_inv (P := fun b => nwf b)); last exact: nwf_tab.
move=> b k b' W; rewrite /set1; case: ifP => // Hi [<-]; move: W; rewrite /nwf /= size_set_nth => /eqP E.
by rewrite E (maxn_idPr _) //; apply: ravel_lt.
Qed.
Lemma tt_np_wf (cs : seq arr) a : all (@nwf R) cs -> tt_to_numpy cs = Ok a -> nwf a.
Proof.
case: cs => [|C0 cs] //= /andP [W0 _]; case E: (reshape C0 _) => [d0|] //=.
case E': (foldM _ _ _) => [d|] //= H; apply: reshape_wf H.
by apply: (foldM_inv (P := fun b => nwf b)) E' => [s x s' _|]; [exact: ell_wf|exact: reshape_wf W0 E].
Qed.
Lemma tucker_np_wf (fs : seq arr) c a : nwf c -> tucker_to_numpy fs c = Ok a -> nwf a.
Proof.
rewrite /tucker_to_numpy => W; case E: (foldM _ _ _) => [d|] //= H; apply: reshape_wf H.
apply: (foldM_inv (P := fun b => nwf b)) E => // s [i U] s' Ws.
by case: (reshape _ _) => [m|] //=; exact: einsum_wf.
Qed.

Lemma new_viewE h (r : res arr) : (forall a, r = Ok a -> nwf a) -> refv h (new_view h r) r.
Proof.
case: r => [a|e] //= /(_ _ erefl) W; exists (new_arr h a).1, (new_arr h a).2.
by split=> //; [apply: ext_arr|apply: rd_new].
Qed.

Lemma rd_reshape h v a s : rd h v = Some a -> prods s = prods (nshape a) ->
  rd h (View (vbuf v) s (voff v)) = Some (Nd s (ndata a)).
Proof.
move=> Ev; have S := (rd_wf Ev).2; move: Ev; rewrite /rd /=; case: (at_ _ _) => [b|] //.
by case: ifP => // /andP [-> /eqP E] [<-] /= ->; rewrite E eqxx.
Qed.

Lemma iadd_wf (a b c : arr) : iadd a b = Ok c -> nwf c /\ nshape c = nshape a.
Proof.
rewrite /iadd; case: eqP => // E; rewrite /nadd /elementwise E => -[<-].
by split=> //; apply: nwf_tab.
Qed.

Lemma op_to_numpyE n h o X : val n h o = Some X -> refv h (op_to_numpy n h o) (to_numpy X).
Proof.
elim: n h o X => [|n IH] h o X // /val_inv.
case: X => [a|s i d|cs|cs|fs co|s Xs].
- by case=> v [Eo Ev]; rewrite /op_to_numpy Eo /=; exists h, v; split=> //; apply: ext_refl.
- case=> v [Eo Ev]; rewrite /op_to_numpy Eo [bind _ _]/= Ev [bind _ _]/=.
  by apply: new_viewE => a; apply: sparse_wf.
- case=> l [vs [Eo El Er]]; rewrite /op_to_numpy Eo [bind _ _]/= El [bind _ _]/= Er [bind _ _]/= [to_numpy _]/=.
  have := @tt_np_wf cs; case E: (tt_to_numpy cs) => [a|e] //= W.
  case: vs Er {El} => [|v [|v' vs]] Er; last first.
  + exists (new_arr h a).1, (new_arr h a).2; split=> //; first exact: ext_arr.
    by apply: rd_new; apply: W => //; exact: rds_wf Er.
  + exists h, (View (vbuf v) (nshape a) (voff v)); split=> //; first exact: ext_refl.
    move: Er E; rewrite /rds /=; case Ev: (rd h v) => [C|] // [<-] /=.
    rewrite /reshape; case: eqP => //= E1; case: eqP => //= E2 [<-] /=.
    by rewrite (rd_reshape Ev) // E2.
  + by move: Er => [Ec]; rewrite -Ec in E.
- case=> l [vs [C0 [r [Eo El Er E]]]]; rewrite /op_to_numpy Eo [bind _ _]/= El [bind _ _]/= Er [bind _ _]/= [to_numpy _]/=.
  apply: new_viewE => a; rewrite E /=; case: (foldM _ _ _) => [d|] //= [<-]; exact: nwf_tab.
- case=> l [vs [v [Eo El Er Ev]]].
  rewrite /op_to_numpy Eo [bind _ _]/= El [bind _ _]/= Er [bind _ _]/= Ev [bind _ _]/= [to_numpy _]/=.
  have := @tucker_np_wf fs co; case E: (tucker_to_numpy fs co) => [a|e] //= W.
  case: vs Er {El} => [|v' vs] Er; last first.
  + exists (new_arr h a).1, (new_arr h a).2; split=> //; first exact: ext_arr.
    by apply: rd_new; apply: W => //; case: (rd_wf Ev).
  + exists h, (View (vbuf v) (nshape a) (voff v)); split=> //; first exact: ext_refl.
    move: Er E => [<-]; rewrite /tucker_to_numpy /= /reshape; case: eqP => // E2 [<-] /=.
    by rewrite (rd_reshape Ev).
- case=> l [os [Eo El V]]; cbn [op_to_numpy]; rewrite Eo; cbn [deref bind]; rewrite El; cbn [deref bind].
  cbn [to_numpy]; set z := zeros R s; set vz := (new_arr h z).2.
  rewrite [new_arr h z]new_arrE -/vz.
  pose goh := fix go (h : heap) (l : seq nat) := match l with
            | [::] => Ok h
            | x :: l' =>
                do p <- op_to_numpy n h x;
                do a <- deref (rd p.1 p.2);
                do acc <- deref (rd p.1 vz);
                do acc' <- iadd acc a;
                go (set_bufs p.1 (set_nth [::] (bufs p.1) (vbuf vz) (ndata acc'))) l'
            end.
  pose gop := fix go acc l := match l with
        | [::] => Ok acc
        | x :: l' => do a <- @to_numpy R x; do acc' <- iadd acc a; go acc' l'
        end.
  rewrite -/goh -/gop.
  have Hz : rd (new_arr h z).1 vz = Some z by apply: rd_new; apply: nwf_tab.
  suff : forall h0 acc, ext h h0 -> caches h0 = caches h -> rd h0 vz = Some acc ->
     (match gop acc Xs with
     | Ok a => exists h', [/\ goh h0 os = Ok h', ext h h', caches h' = caches h & rd h' vz = Some a]
     | Err e => goh h0 os = Err e
     end : Prop).
    move=> /(_ _ _ (ext_arr h z) erefl Hz); case: (gop z Xs) => [a|e] /=; last by move=> ->.
    by case=> h' [-> X' C' V']; exists h', vz.
  elim: os Xs V {Eo El} => [|o' os IHo] Xs V h0 acc X0 C0 Hacc.
    by move: V => [<-] /=; exists h0.
  move: V => /=; case E: (val n h o') => [X|] //; case E': (opts _) => [r|] // [<-] /=.
  have := IH _ _ _ (val_ext X0 E); case: (to_numpy X) => [a|e] /=; last by move=> ->.
  case=> h1 [v1 [-> X1 C1 V1]] /=; rewrite V1 (rd_ext X1 Hacc) /=.
  case Ei: (iadd acc a) => [acc'|e] //=.
  have [Wi Si] := iadd_wf Ei.
  apply: IHo => //.
  + split; [|by case: (ext_trans X0 X1)..].
    move=> k x Ek; have Lk := at_lt Ek.
    have Lz : (vbuf vz < size (bufs h1))%N.
      move: (rd_ext X1 Hacc); rewrite /rd; case Eb: (at_ _ (vbuf vz)) => [b|] // _; exact: at_lt Eb.
    rewrite /= at_set //; case: eqP => [Ekz|_]; first by move: Lk; rewrite Ekz /= ltnn.
    by case: (ext_trans X0 X1) => H _ _ _; apply: H.
  + by rewrite /= C1.
  + have := rd_ext X1 Hacc; rewrite /rd /=; case Eb: (at_ _ _) => [b|] // H.
    rewrite at_set ?eqxx; last exact: at_lt Eb.
    have Es : nshape acc' = s by rewrite Si; move: H; case: ifP => // _ [<-].
    have Ed : size (ndata acc') = prods s by move/eqP: Wi; rewrite Es.
    have Ez : size (ndata z) = prods s by apply/eqP; exact: (nwf_tab s _).
    have := rd_new h Wi; rewrite /rd /= at_rcons size_iota Ed Es !Ez !size_iota eqxx.
    by case: ifP.
Qed.

Lemma op_denseE n h o X : val n h o = Some X ->
  refs n h (op_dense n h o) (do a <- to_numpy X; Ok (Dense a)).
Proof.
move=> V; have := op_to_numpyE V; rewrite /op_dense; case: (to_numpy X) => [a|e] /=; last by move=> ->.
case=> h' [v [-> X' C' Ev]] /=; apply: (refs_ext X') => //; case: n V => // n _.
exact: new_denseE.
Qed.

Lemma op_to_sparseE n h o a : val n h o = Some (Dense a) ->
  refs n h (op_to_sparse h o) (Ok (to_sparse a)).
Proof.
case: n => [|n] // /val_inv [v [Eo Ev]]; rewrite /op_to_sparse Eo /= Ev /=.
have [/eqP W S] := rd_wf Ev.
case: ifP => _.
  apply: new_sparseE.
  have Ep : prods [:: size (ndata a)] = prods (nshape a) by rewrite /= muln1 W.
  exact: rd_reshape Ev Ep.
pose b := Nd [:: size (ndata a)] (ndata a); have Wb : nwf b by rewrite /nwf /= muln1.
apply: (refs_ext (ext_arr h b)) => //; apply: new_sparseE; exact: rd_new.
Qed.

Lemma split_map (A B : Type) (f : A -> B) m n i (l : seq A) :
  map f (split_slice m n i l) = split_slice m n i (map f l).
Proof. by rewrite /split_slice; case: ifP => _; rewrite map_take map_drop. Qed.

Lemma split_mem (A : eqType) m n i (l : seq A) : {subset split_slice m n i l <= l}.
Proof. by rewrite /split_slice => x; case: ifP => _ /mem_take /mem_drop. Qed.

Lemma op_splitE n h o s inds d k : val n h o = Some (Sparse s inds d) ->
  refs n.+1 h (op_split h o k) (sparse_split s inds d k).
Proof.
case: n => [|n] // /val_inv [v [Eo Ev]]; rewrite /op_split Eo /= /sparse_split; case: eqP => // _.
have Es : size (voff v) = size d by rewrite -(rd_data_size Ev).
set f := fun (_ : heap) _ => _; set g := fun i : nat => Sparse s _ _.
suff : exists (h' : heap) os', [/\ mapH f h (iota 0 k) = Ok (h', os'), ext h h', caches h' = caches h
    & opts (map (val n.+1 h') os') = Some (map g (iota 0 k))].
  case=> h' [os' [-> X' C' V']] /=; apply: (refs_ext X' C'); exact: sum_ofE.
move: h Ev @f {Eo}; elim: (iota 0 k) => [|i l IH] h Ev f /=.
  by exists h, [::]; split=> //; apply: ext_refl.
rewrite {1}/f /=; set x := OSparse _ _ _; set h1 := set_objs _ _.
have X1 : ext h h1 := ext_obj h x.
have [h' [os' [-> X' C' V']]] := IH h1 (rd_ext X1 Ev).
exists h', (size (objs h) :: os'); split=> //; first exact: ext_trans X1 X'.
rewrite [opts _]/= -/(val n.+1 h' _) V'.
suff V : val n.+1 h1 (size (objs h)) = Some (g i) by rewrite (val_ext X' V).
rewrite /= at_rcons /x /g Es.
move: Ev; rewrite /rd /=; case: (at_ _ _) => [b|] //; case: ifP => // /andP [Hall _] [_ Ed].
have -> : all (fun k => k < size b)%N (split_slice (size d) k i (voff v)).
  by apply/allP => y /split_mem; move/allP: Hall; apply.
by rewrite muln1 eqxx /= !size_map eqxx split_map Ed.
Qed.

Lemma concat_wf k (a b c : arr) : concat_ax k a b = Ok c -> nwf c.
Proof. by rewrite /concat_ax; case: ifP => // _ [<-]; apply: nwf_tab. Qed.
Lemma mapM_all (A B : Type) (P : B -> bool) (f : A -> res B) l r :
  (forall a b, f a = Ok b -> P b) -> mapM f l = Ok r -> all P r.
Proof.
move=> H; elim: l r => [|x l IH] r /=; first by case=> <-.
case E: (f x) => [y|] //=; case E': (mapM f l) => [ys|] //= [<-] /=; by rewrite (H _ _ E) IH.
Qed.
Lemma tt_add_wf (cs1 cs2 cs : seq arr) : tt_add cs1 cs2 = Ok cs -> all (@nwf R) cs.
Proof.
rewrite /tt_add; case: cs1 => [|A0 r1] //; case: cs2 => [|B0 r2] //.
case E1: (concat_ax 2 _ _) => [x|] //; rewrite [bind _ _]/=.
case E2: (mapM _ _) => [ms|] //; rewrite [bind _ _]/=.
case E3: (concat_ax 0 _ _) => [y|] // [<-]; rewrite /= all_cat /= (concat_wf E1) (concat_wf E3) /= ?andbT.
apply: (mapM_all (P := @nwf R) _ E2) => p q; rewrite /tt_add_mid.
case: (nshape p.1) => [|a [|b [|c [|??]]]] //; case: (nshape p.2) => [|a' [|b' [|c' [|??]]]] //.
by case: (concat_ax _ _ _) => [?|] //=; case: (concat_ax _ _ _) => [?|] //=; exact: concat_wf.
Qed.

Lemma op_tt_addE n h o1 o2 cs1 cs2 : val n h o1 = Some (TT cs1) -> val n h o2 = Some (TT cs2) ->
  refs n h (op_tt_add h o1 o2) (do cs <- tt_add cs1 cs2; Ok (TT cs)).
Proof.
case: n => [|n] // /val_inv [l1 [vs1 [Eo1 El1 Er1]]] /val_inv [l2 [vs2 [Eo2 El2 Er2]]].
rewrite /op_tt_add Eo1 /= Eo2 /= El1 /= El2 /= Er1 /= Er2 /=.
have := @tt_add_wf cs1 cs2; case: (tt_add cs1 cs2) => [cs|e] //= /(_ _ erefl) W.
case Ea: (new_arrs h cs) => [h1 vs'].
have X1 : ext h h1 by have := ext_arrs h cs; rewrite Ea.
have Ch : caches h1 = caches h by rewrite -(caches_arrs h cs) Ea.
have := rds_new h W; rewrite Ea /= => Ed.
apply: (refs_ext (ext_trans X1 (ext_alist h1 vs'))) => //.
apply: (@new_ttE _ n _ _ vs'); first by rewrite /= at_rcons.
exact: rds_ext (ext_alist _ _) Ed.
Qed.

Lemma op_sweepE (f : seq arr -> res (seq arr)) n h o cs : val n h o = Some (TT cs) ->
  (forall cs', f cs = Ok cs' -> if size cs == 1%N then cs' = cs else all (@nwf R) cs') ->
  refs n h (op_sweep f h o) (do cs' <- f cs; Ok (TT cs')).
Proof.
case: n => [|n] // /val_inv [l1 [vs1 [Eo1 El1 Er1]]].
rewrite /op_sweep Eo1 /= El1 /= Er1 /=.
case: (f cs) => [cs'|e] //= /(_ _ erefl) W.
have Es := opts_size Er1; rewrite size_map in Es; rewrite Es in W.
suff H vs' h1 : ext h h1 -> caches h1 = caches h -> rds h1 vs' = Some cs' ->
    refs n.+1 h (let: (h2, l') := new_alist h1 vs' in new_tt h2 l') (Ok (TT cs')).
  case: vs1 W Er1 {El1 Es} => [|v1 [|v2 vs]] W Er1.
  - case Ea: (new_arrs h cs') => [h1 vs']; apply: H; [have := ext_arrs h cs'|have := caches_arrs h cs'|have := rds_new h W]; by rewrite Ea.
  - move: W => /= W; apply: H => //; [exact: ext_refl|by rewrite W].
  case Ea: (new_arrs h cs') => [h1 vs']; apply: H; [have := ext_arrs h cs'|have := caches_arrs h cs'|have := rds_new h W]; by rewrite Ea.
move=> X1 Ch Ed.
apply: (refs_ext (ext_trans X1 (ext_alist h1 vs'))) => //.
apply: (@new_ttE _ n _ _ vs'); first by rewrite /= at_rcons.
exact: rds_ext (ext_alist _ _) Ed.
Qed.

End Thy.
