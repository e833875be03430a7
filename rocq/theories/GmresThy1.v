From Coq Require Import String Ascii NArith.
From mathcomp Require Import all_ssreflect all_algebra.
From mathcomp Require Import zify.
From Verif Require Import Py Nd Utils Tensor TensorNum Sketch Mpo Gmres Spec LinSpec RecSpec SkSpec MpoSpec GmresSpec.
From Verif Require Import NdThy Ein MatThy TensorThy TensorThy2 ChainThy SweepThy RoundThy SkThy1 SkThy2 RecThy3 PrecThy Prop_Mpo Prop_Prec.
Set Implicit Arguments. Unset Strict Implicit. Unset Printing Implicit Defensive.
Import GRing.Theory Num.Theory.
Local Open Scope ring_scope.

Section G.
Variable R : rcfType.
Notation arr := (nd R).
Notation tensor := (tensor R).
Variables (qr : arr -> res (arr * arr)) (solve_tri : arr -> arr -> res arr).
Hypotheses (qrP : qr_tri_contract qr) (solP : solve_tri_contract solve_tri).
Notation map_call := (map_call solve_tri).
Notation mapsum_call := (mapsum_call solve_tri).
Implicit Types (f : ttmap R) (fs : seq (ttmap R)).

Lemma trainP s X : reflect (exists2 cs, X = TT cs & wf_tt cs /\ tshape (TT cs) = s) (is_train (R:=R) s X).
Proof.
by case: X => [a|t i v|cs|cs|ff c|t Xs] /=; try (by constructor; case);
  apply: (iffP andP) => [[w /eqP e]|[cs' [->] [w e]]]; [exists cs | rewrite w; split=> //; apply/eqP].
Qed.

Lemma train_wf s (X : tensor) : is_train s X -> wf X /\ tshape X = s.
Proof. by case/trainP=> cs -> []. Qed.

Lemma train_sumP s X : reflect (exists2 Xs, X = TSum s Xs & ~~ nilp Xs /\ all (is_train s) Xs) (is_train_sum (R:=R) s X).
Proof.
by case: X => [a|t i v|cs|cs|ff c|t Xs] /=; try (by constructor; case);
  apply: (iffP and3P) => [[/eqP -> n h]|[Xs' [-> ->] [n h]]]; [exists Xs | split].
Qed.

Lemma train_sum_wf s (X : tensor) : is_train_sum s X -> wf X /\ tshape X = s.
Proof.
case/train_sumP=> Xs -> [n h]; split=> //; rewrite /wf wf_sumE n /=; apply: sub_all h => Y hY.
by have [w e] := train_wf hY; rewrite [wf_gen _ _]w e eqxx.
Qed.

(* ---- the actions are linear ---- *)

Lemma map_act_lin f s t : map_ok qr f s t -> linear_on s t (map_act f s).
Proof.
case: f => [ms|p|ins outs call] /=.
- move=> _; split=> [x y j h _|c x y j _].
    by apply: eq_sum_idx => i hi; rewrite h.
  by rewrite -sum_idxZ -sum_idxD; apply: eq_sum_idx => i _; rewrite mulrDr mulrCA.
- move=> [<- hm hA _]; split=> [x y j h hj|c x y j _]; first exact: mode_mul_ext hj hm erefl h.
  rewrite /mode_mul big_distrr -big_split /=; apply: eq_bigr => l _.
  by rewrite mulrDr mulrCA.
- move=> _; split=> [x y j h _|c x y j _].
    by apply: eq_sum_idx => i hi; rewrite h.
  by rewrite -sum_idxZ -sum_idxD; apply: eq_sum_idx => i _; rewrite mulrDr mulrCA.
Qed.

Lemma lin_sum s t act (I : Type) (r : seq I) (c : I -> R) (x : I -> seq nat -> R) j : linear_on s t act -> inb t j ->
  act (fun i => \sum_(k <- r) c k * x k i) j = \sum_(k <- r) c k * act (x k) j.
Proof.
move=> [hx hl] hj; elim: r => [|k r IH].
  rewrite big_nil (hx _ (fun i => (-1) * 0 + 0)) ?hl // => [|i _]; last by rewrite big_nil mulr0 addr0.
  by rewrite mulN1r addNr.
rewrite big_cons -IH -hl //; apply: hx => // i _; by rewrite big_cons.
Qed.

Lemma maps_act_lin fs s t : (forall f, List.In f fs -> map_ok qr f s t) -> linear_on s t (maps_act fs s).
Proof.
elim: fs => [|f fs IH] H.
  by split=> [x y j _ _|c x y j _]; rewrite /maps_act !big_nil // mulr0 addr0.
have [h1 h2] := map_act_lin (H f (or_introl erefl)); have [h3 h4] := IH (fun g hg => H g (or_intror hg)).
split=> [x y j h hj|c x y j hj]; rewrite /maps_act !big_cons.
  by congr (_ + _); [exact: h1 | exact: h3].
by rewrite h2 // [X in _ + X](h4 c x y j hj) addrACA -mulrDr.
Qed.

Definition pre_ok (pre : option (precond R)) (s : seq nat) : Prop := if pre is Some p then map_ok qr (MapPre p) s s else True.

Lemma pre_act_lin pre s : pre_ok pre s -> linear_on s s (pre_act pre s).
Proof.
case: pre => [p|] /= h; first exact: (@map_act_lin (MapPre p) s s h).
by split=> [x y j e hj|c x y j hj]; rewrite /pre_act // e.
Qed.

Lemma op_act_lin fs pre s : (forall f, List.In f fs -> map_ok qr f s s) -> pre_ok pre s -> linear_on s s (op_act fs pre s).
Proof.
move=> hf hp; have [h1 h2] := maps_act_lin hf; have [h3 h4] := pre_act_lin hp; split=> [x y j h hj|c x y j hj].
  by apply: h3 => // i hi; apply: h1.
rewrite /op_act -h4 //; apply: h3 => // i hi; exact: h2.
Qed.

(* ---- the maps compute their action ---- *)
Lemma map_callE f s t (cs : seq arr) : map_ok qr f s t -> wf_tt cs -> tshape (TT cs) = s ->
  or_linalg (map_call f cs) (fun ys => [/\ wf_tt ys, tshape (TT ys) = t &
    forall j, inb t j -> den (TT ys) j = map_act f s (den (TT cs)) j]).
Proof.
case: f => [ms|p|ins outs call] /=; last by move=> [_ _ h] w e; apply: or_imp (h cs w e) _ => ys [h1 h2 _ h4].
  move=> [wm ei eo] w e; rewrite -ei in e; have [ys -> [wy sy _ gy]] := callE wm w (esym e).
  by split=> //; [rewrite -eo|move=> j; rewrite -eo -ei => /gy].
move=> [<- hm hA enew] w e; rewrite -e in hm hA enew *.
have hm' : (p_mode p < size cs)%N by rewrite -(size_map (fun C : arr => dim C 1) cs).
have := backwardE qrP solP w hm' erefl hA enew; case: ifP => _; last by move=> ->.
by case=> ys -> [wy sy _ gy].
Qed.

Lemma mapsum_callE fs s t X (Xs := if X is TSum _ Xs then Xs else [:: X]) mi mo : ~~ nilp fs ->
  (forall f, List.In f fs -> map_ok qr f s t) -> is_train s X \/ is_train_sum s X ->
  or_linalg (mapsum_call (MapSum fs mi mo) X) (fun Y => is_train_sum t Y /\
    forall j, inb t j -> den Y j = maps_act fs s (den X) j).
Proof.
move=> nf hf hX.
have [hXs nX dX] : [/\ all (is_train s) Xs, ~~ nilp Xs & forall i, den X i = \sum_(Y <- Xs) 1 * den Y i].
  case: hX => [|/train_sumP[Ys]]; rewrite /Xs.
    case/trainP=> cs -> [w e]; split=> //; last by move=> i; rewrite big_seq1 mul1r.
    by rewrite /all andbT; apply/trainP; exists cs.
  move=> -> [n h]; split=> // i; rewrite den_sum; apply: eq_bigr => Y _; by rewrite mul1r.
have -> : mapsum_call (MapSum fs mi mo) X =
  bind (mapM (fun p : ttmap R * tensor => do cs <- cores_of p.2; do ys <- map_call p.1 cs; Ok (TT ys)) [seq (f, Y) | f <- fs, Y <- Xs]) (@mk_sum R).
  by rewrite /mapsum_call /Xs; case: hX => [/trainP[cs ->]|/train_sumP[Ys ->]].
have hloc f Y : List.In f fs -> List.In Y Xs -> or_linalg (do cs <- cores_of Y; do ys <- map_call f cs; Ok (TT ys))
  (fun Z => is_train t Z /\ forall j, inb t j -> den Z j = map_act f s (den Y) j).
  move=> hff hY; have : is_train s Y.
    elim: (Xs) hXs hY => //= Z Zs IH /andP[hZ hZs] [<- //|]; exact: IH.
  case/trainP=> cs -> [w e]; apply: (or_bind (map_callE (hf f hff) w e)) => ys [wy sy gy].
  by split=> //; apply/trainP; exists ys.
apply: (@or_bind _ _ _ _ (fun Zs => [/\ size Zs = (size fs * size Xs)%N, all (is_train t) Zs &
  forall j, inb t j -> \sum_(Z <- Zs) den Z j = \sum_(f <- fs) \sum_(Y <- Xs) map_act f s (den Y) j])).
  elim: fs {nf} hf hloc => [|f fs IH] hf hloc /=; first by split=> // j _; rewrite !big_nil.
  set F := (fun p : _ * _ => _) in IH *.
  have mapM_cat l1 l2 : mapM F (l1 ++ l2) = (do a <- mapM F l1; do b <- mapM F l2; Ok (a ++ b)).
    elim: l1 => [|x l1 IHl] /=; first by case: (mapM F l2).
    case: (F x) => //= y; rewrite IHl; case: (mapM F l1) => //= a; by case: (mapM F l2).
  rewrite mapM_cat; apply: (@or_bind _ _ _ _ (fun Zs => [/\ size Zs = size Xs, all (is_train t) Zs &
    forall j, inb t j -> \sum_(Z <- Zs) den Z j = \sum_(Y <- Xs) map_act f s (den Y) j])).
    have {IH} := fun Y => hloc f Y (or_introl erefl).
    elim: (Xs) => [|Y Ys IHY] hl /=; first by split=> // j _; rewrite !big_nil.
    apply: (or_bind (hl Y (or_introl erefl))) => Z [hZ gZ].
    apply: (or_bind (IHY (fun Y' hY' => hl Y' (or_intror hY')))) => Zs [sz hZs gZs] /=.
    by rewrite hZ hZs sz; split=> // j hj; rewrite !big_cons gZ // gZs.
  move=> Z1 [s1 a1 g1].
  apply: (or_bind (IH (fun g hg => hf g (or_intror hg)) (fun g Y hg => hloc g Y (or_intror hg)))) => Z2 [s2 a2 g2] /=.
  rewrite size_cat s1 s2 all_cat a1 a2; split=> // j hj.
  by rewrite big_cat big_cons /= g1 // g2.
move=> Zs [sz hZs gZs]; case: Zs sz hZs gZs => [|Z Zs] sz hZs gZs.
  by move: sz nf nX; case: (fs) => //; case: (Xs).
have [wZ sZ] : wf Z /\ tshape Z = t by case/andP: hZs => /train_wf.
rewrite /mk_sum sZ; split; first by apply/train_sumP; exists (Z :: Zs).
move=> j hj; rewrite den_sum gZs //.
rewrite /maps_act; elim: (fs) hf => [|f gs IH] hf; rewrite ?big_nil // !big_cons; congr (_ + _).
  have hL := map_act_lin (hf f (or_introl erefl)).
  rewrite (proj1 hL _ _ _ (fun i _ => dX i) hj) (lin_sum _ _ _ hL hj).
  by apply: eq_bigr => Y _; rewrite mul1r.
by apply: IH => g hg; apply: hf; right.
Qed.
End G.
