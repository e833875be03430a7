(* .T and split are live views: they follow later writes to the arrays. *)
From mathcomp Require Import all_ssreflect all_algebra.
From mathcomp.zify Require Import zify.
From Verif Require Import Py Nd Utils Tensor NdThy Heap HeapSpec HeapThy1 HeapThy2 HeapThy3 HeapThy4 HeapThy5.
Set Implicit Arguments. Unset Strict Implicit. Unset Printing Implicit Defensive.
Import GRing.Theory.
Local Open Scope ring_scope.

Section Thy.
Variable R : comRingType.
Notation arr := (nd R).
Notation tensor := (tensor R).
Notation heap := (heap R).
Implicit Types (h : heap) (v : view) (o : nat).

(* everything except the contents of the buffers *)
Definition sext h h' := [/\ sub (alists h) (alists h'), sub (tlists h) (tlists h') & sub (objs h) (objs h')].
Lemma sext_refl h : sext h h. Proof. by split; apply: sub_refl. Qed.
Lemma sext_trans h2 h1 h3 : sext h1 h2 -> sext h2 h3 -> sext h1 h3.
Proof. by move=> [a2 a3 a4] [b2 b3 b4]; split; [exact: sub_trans a2 b2|exact: sub_trans a3 b3|exact: sub_trans a4 b4]. Qed.
Lemma ext_sext h h' : ext h h' -> sext h h'. Proof. by case. Qed.

Lemma val_dense n h o v a : at_ (objs h) o = Some (ODense v) -> rd h v = Some a -> val n.+1 h o = Some (Dense a).
Proof. by move=> E Ev; rewrite /= E Ev. Qed.
Lemma val_sparse n h o s i v d : at_ (objs h) o = Some (OSparse s i v) ->
  rd h v = Some (Nd [:: size d] d) -> val n.+1 h o = Some (Sparse s i d).
Proof. by move=> E Ev; rewrite /= E Ev /= eqxx. Qed.
Lemma val_tt n h o l vs cs : at_ (objs h) o = Some (OTT [seq vdim C 1 | C <- vs] [seq vdim C 0 | C <- behead vs] l) ->
  at_ (alists h) l = Some vs -> rds h vs = Some cs -> val n.+1 h o = Some (TT cs).
Proof.
move=> E El Er; rewrite /= E El Er (rds_dims _ Er) eqxx.
by rewrite (rds_dims _ (rds_behead Er)) eqxx.
Qed.
Lemma val_cp n h o l v0 vs C0 cs : at_ (objs h) o = Some (OCP [seq vdim C 0 | C <- v0 :: vs] (vdim v0 1) l) ->
  at_ (alists h) l = Some (v0 :: vs) -> rds h (v0 :: vs) = Some (C0 :: cs) -> val n.+1 h o = Some (CP (C0 :: cs)).
Proof.
move=> E El Er; rewrite [LHS]/= E El Er.
by move: (rds_dims 0%N Er) (rds_dims 1%N Er) => /= -> [-> _]; rewrite !eqxx.
Qed.
Lemma val_tucker n h o l vs v fs c : at_ (objs h) o = Some (OTucker [seq vdim C 1 | C <- vs] [seq vdim C 0 | C <- vs] l v) ->
  at_ (alists h) l = Some vs -> rds h vs = Some fs -> rd h v = Some c -> val n.+1 h o = Some (Tucker fs c).
Proof.
move=> E El Er Ev; rewrite /= E El Er Ev (rds_dims _ Er) eqxx.
by rewrite (rds_dims _ Er) eqxx.
Qed.

Lemma sum_of_inv h os h' o' : sum_of h os = Ok (h', o') -> exists o0 r x0,
  [/\ os = o0 :: r, at_ (objs h) o0 = Some x0, at_ (objs h') o' = Some (OSum (oshape x0) (size (tlists h))),
      at_ (tlists h') (size (tlists h)) = Some os & ext h h'].
Proof.
move=> E; have K := kp_sum_of E; move: E; rewrite /sum_of /new_sum /= at_rcons /=.
case: os => [|o0 r] //=; case Ex: (at_ _ o0) => [x0|] //= [Eh Eo].
exists o0, r, x0; split=> //; last exact: K.1.
- by rewrite -Eh -Eo /= at_rcons.
- by rewrite -Eh /= at_rcons.
Qed.

Lemma sum_live n h os h' o' h'' Ys : sum_of h os = Ok (h', o') -> sext h' h'' ->
  opts (map (val n h'') os) = Some Ys ->
  exists Y, mk_sum Ys = Ok Y /\ val n.+1 h'' o' = Some Y.
Proof.
case/sum_of_inv => o0 [r [x0 [Eos Ex0 Eo' El X]]] [_ St So] V.
have Ex : at_ (objs h'') o0 = Some x0 by apply: So; case: X => _ _ _; apply.
move: (V); rewrite {1}Eos /=; case E0: (val n h'' o0) => [Y0|] //; case: (opts _) => [Yr|] // [EYs].
rewrite -EYs; eexists; split; first by [].
by rewrite (So _ _ Eo') (St _ _ El) V /= -EYs (val_oshape E0 Ex).
Qed.

Lemma T_live n h o h' o' h'' X : op_T n h o = Ok (h', o') -> sext h' h'' ->
  val n h'' o = Some X -> exists Y, tT X = Ok Y /\ val n h'' o' = Some Y.
Proof.
elim: n h o h' o' h'' X => [|n IH] h o h' o' h'' X //.
move=> E S V; have := E; cbn [op_T]; case Eo: (at_ (objs h) o) => [x|] // /=.
have K := kp_T E; have [Sa St So] := S.
have S0 : sext h h'' := sext_trans (ext_sext K.1) S; have [Sa0 St0 So0] := S0.
have Eo2 := So0 _ _ Eo.
have := val_inv V; case: X V => [a|s i d|cs|cs|fs c|s Xs] V.
- case=> v [Eo3 Ev]; move: Eo2; rewrite Eo3 => -[Ex]; rewrite -{}Ex /=.
  case Ev': (vtrans _ _) => [v'|] //= [Eh Eo'].
  have := vtransE (rev (iota 0 (size (vshape v)))) Ev; rewrite Ev'.
  rewrite /dense_T /ndim (rd_wf Ev).2; case: (transpose _ _) => [a'|] // [w [[<-] Ea' _]].
  exists (Dense a'); split=> //; apply: val_dense Ea'; apply: So; by rewrite -Eh -Eo' /= at_rcons.
- case=> v [Eo3 Ev]; move: Eo2; rewrite Eo3 => -[Ex]; rewrite -{}Ex /= => -[Eh Eo'].
  exists (Sparse (rev s) (rev i) d); split=> //; apply: val_sparse Ev; apply: So.
  by rewrite -Eh -Eo' /= at_rcons.
- case=> l [vs [Eo3 El Er]]; move: Eo2; rewrite Eo3 => -[Ex]; rewrite -{}Ex /=.
  case El0: (at_ _ l) => [vs0|] //=; have Evs : vs0 = vs by move: (Sa0 _ _ El0); rewrite El => -[].
  rewrite {}Evs in El0 *; have := vtrans_mapE [:: 2; 1; 0]%N (rds_rev Er); rewrite /tt_T.
  case: (mapM _ (rev cs)) => [cs'|e]; last by move=> ->.
  case=> vs' [-> Er'] /=; rewrite /new_tt /= at_rcons /= => -[Eh Eo'].
  exists (TT cs'); split=> //; apply: (@val_tt _ _ _ (size (alists h)) vs') => //.
    by apply: So; rewrite -Eh -Eo' /= at_rcons.
  by apply: Sa; rewrite -Eh /= at_rcons.
- case=> l [vs [C0 [r [Eo3 El Er Ec]]]]; move: Eo2; rewrite Eo3 => -[Ex]; rewrite -{}Ex /=.
  case El0: (at_ _ l) => [vs0|] //=; have Evs : vs0 = vs by move: (Sa0 _ _ El0); rewrite El => -[].
  rewrite {}Evs in El0 *; have := rds_rev Er.
  have : rev cs != [::] by rewrite -size_eq0 size_rev Ec.
  case Erc: (rev cs) => [|D0 ds] // _.
  case Erv: (rev vs) => [|w0 ws] // Er'.
  rewrite /new_cp /= at_rcons /= => -[Eh Eo'].
  exists (CP (D0 :: ds)); split=> //; apply: (@val_cp _ _ _ (size (alists h)) w0 ws) => //.
    by apply: So; rewrite -Eh -Eo' /= at_rcons.
  by apply: Sa; rewrite -Eh /= at_rcons.
- case=> l [vs [v [Eo3 El Er Ev]]]; move: Eo2; rewrite Eo3 => -[Ex]; rewrite -{}Ex /=.
  case El0: (at_ _ l) => [vs0|] //=; have Evs : vs0 = vs by move: (Sa0 _ _ El0); rewrite El => -[].
  rewrite {}Evs in El0 *; rewrite size_map; have := vtransE (rev (iota 0 (size fs))) Ev.
  case: (transpose _ _) => [c'|e]; last by move=> ->.
  case=> v' [-> Ev' _] /=; rewrite /new_tucker /= at_rcons /= => -[Eh Eo'].
  exists (Tucker (rev fs) c'); split=> //; apply: (@val_tucker _ _ _ (size (alists h)) (rev vs) v') => //.
  + by apply: So; rewrite -Eh -Eo' /= at_rcons.
  + by apply: Sa; rewrite -Eh /= at_rcons.
  + exact: rds_rev Er.
- case=> l [os [Eo3 El V']]; move: Eo2; rewrite Eo3 => -[Ex]; rewrite -{}Ex /=.
  case El0: (at_ _ l) => [os0|] //=; have Evs : os0 = os by move: (St0 _ _ El0); rewrite El => -[].
  rewrite {}Evs in El0 *; case Em: (mapH _ _ _) => [[h1 os1]|] //= Es.
  have S1 : sext h1 h'' by apply: sext_trans S; apply: ext_sext; exact: (kp_sum_of Es).1.
  have [Ys [EYs VYs]] : exists Ys, mapM (@tT R) Xs = Ok Ys /\ opts (map (val n h'') os1) = Some Ys.
    clear Es El0 El Eo3 Eo S0 Sa0 St0 So0 K V E S Sa St So.
    elim: os h Xs os1 h1 V' Em S1 => [|o1 os IHo] h Xs os1 h1 /=.
      by case=> <- [_ <-] _; exists [::].
    case E1: (val n h'' o1) => [X1|] //; case E2: (opts _) => [r|] // [<-].
    case Ea: (op_T n h o1) => [[ha oa]|] //=; case Em: (mapH _ _ _) => [[hb osb]|] //= [<- <-] S1.
    have Kb := kp_mapH (fun h a => @kp_T R n h a) Em.
    have [Y1 [EY1 VY1]] := IH _ _ _ _ _ _ Ea (sext_trans (ext_sext Kb.1) S1) E1.
    have [Ys [EYs VYs]] := IHo _ _ _ _ E2 Em S1.
    by exists (Y1 :: Ys); rewrite /= EY1 /= EYs VY1 VYs.
  have [Y [EY VY]] := sum_live Es S VYs.
  by exists Y; rewrite -/(tT (TSum s Xs)) tT_sum EYs.
Qed.

Lemma split_live h o k h' o' h'' n s i d : op_split h o k = Ok (h', o') -> sext h' h'' ->
  val n h'' o = Some (Sparse s i d) ->
  exists Y, sparse_split s i d k = Ok Y /\ val n.+1 h'' o' = Some Y.
Proof.
case: n => [|n] // E S V; have := E; have K := kp_split E; have [Sa St So] := S.
have S0 : sext h h'' := sext_trans (ext_sext K.1) S; have [Sa0 St0 So0] := S0.
rewrite /op_split; case Eo: (at_ (objs h) o) => [x|] //; rewrite [bind _ _]/=; have Eo2 := So0 _ _ Eo.
have [v [Eo3 Ev]] := val_inv V; move: Eo2; rewrite Eo3 => -[Ex]; rewrite -{}Ex in Eo *.
rewrite /sparse_split; case: eqP => // _.
set f := fun (_ : heap) _ => _; set g := fun j : nat => Sparse s _ _.
case Em: (mapH f h _) => [[h1 os1]|] //; rewrite [bind _ _]/= => Es.
have S1 : sext h1 h'' by apply: sext_trans S; apply: ext_sext; exact: (kp_sum_of Es).1.
apply: (sum_live (n := n.+1) Es S).
have Esz : size (voff v) = size d by rewrite -(rd_data_size Ev).
have Kf hh l : kp hh (mapH f hh l) by apply: kp_mapH => hx y; apply: kp_ok; apply: keeps_obj.
elim: (iota 0 k) h h1 os1 Em S1 {Eo E K Es S0 Sa0 St0 So0 V} => [|j l IHl] h h1 os1 /=.
  by case=> _ <-.
case Em: (mapH f _ l) => [[h2 os2]|] //= [<- <-] S1.
rewrite [map _ _]/= [opts _]/= -/(val n.+1 h'' _) (IHl _ _ _ Em S1).
have Eobj : at_ (objs h'') (size (objs h)) = Some (OSparse s [seq split_slice (size (voff v)) k j row | row <- i]
    (View (vbuf v) [:: size (split_slice (size (voff v)) k j (voff v))] (split_slice (size (voff v)) k j (voff v)))).
  case: S1 => _ _; apply; have [[_ _ _ So2] _] := Kf _ _ _ _ Em; apply: So2; by rewrite /= at_rcons.
have -> : val n.+1 h'' (size (objs h)) = Some (g j); last by [].
rewrite /= Eobj /g Esz.
move: Ev; rewrite /rd /=; case: (at_ _ _) => [b|] //; case: ifP => // /andP [Hall _] [_ Ed].
have -> : all (fun k => k < size b)%N (split_slice (size d) k j (voff v)).
  by apply/allP => y /split_mem; move/allP: Hall; apply.
by rewrite muln1 eqxx /= !size_map eqxx split_map Ed.
Qed.

End Thy.
