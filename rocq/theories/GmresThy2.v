(* Tensor operations inside tt_sum_gmres preserve "train of positive sizes". *)
From Coq Require Import String Ascii NArith.
From mathcomp Require Import all_ssreflect all_algebra.
From mathcomp Require Import zify.
From Verif Require Import Py Nd Utils Tensor TensorNum Sketch Mpo Gmres Spec LinSpec RecSpec SkSpec MpoSpec GmresSpec ArnSpec.
From Verif Require Import NdThy Ein MatThy TensorThy TensorThy2 TensorThy3 ChainThy DotThy NormThy SweepThy RoundThy SkThy1 SkThy2
  RecThy3 PrecThy Prop_Mpo Prop_Prec GmresThy1 RoundSumThy.
Set Implicit Arguments. Unset Strict Implicit. Unset Printing Implicit Defensive.
Import GRing.Theory Num.Theory.
Local Open Scope ring_scope.

Section G.
Variable R : rcfType.
Notation arr := (nd R).
Notation tensor := (tensor R).
Notation allpos := (all (fun n => 0 < n)%N).
Variables (qr : arr -> res (arr * arr)) (solve_tri : arr -> arr -> res arr).
Hypotheses (qrP : qr_tri_contract qr) (solP : solve_tri_contract solve_tri).

Lemma train_shape s (X : tensor) : pos_train s X -> [/\ wf X, tshape X = s, (0 < size s)%N & allpos s].
Proof.
case/pos_trainP=> cs -> [w e p]; split=> //; last by move: p; rewrite (pos_ttE w) e => /andP[].
by rewrite -e size_map; case: (cs) w.
Qed.

Lemma tmul_train s (X : tensor) c : pos_train s X -> exists2 Y, tmul X c = Ok Y & pos_train s Y /\
  forall i, inb s i -> den Y i = c * den X i.
Proof.
case/pos_trainP=> cs -> [w e p]; have [Y eY [wY sY gY]] := tmulE c (w : wf (TT cs)).
exists Y => //; split; last by rewrite -e.
move: eY; rewrite /tmul; case/lastP: (cs) w e p wY sY => [|ds C] // w e p wY sY.
rewrite rev_rcons rev_cons revK => -[eY]; rewrite -eY in wY sY *; apply/pos_trainP; eexists; first by [].
split=> //; first by rewrite sY.
move: p; rewrite /pos_tt !all_rcons => /andP[p ->]; rewrite andbT; exact: p.
Qed.

Lemma tneg_train s (X : tensor) : pos_train s X -> exists2 Y, tneg X = Ok Y & pos_train s Y /\ forall i, inb s i -> den Y i = - den X i.
Proof. by move=> /(tmul_train (-1))[Y e [p g]]; exists Y => //; split=> // i /g ->; rewrite mulN1r. Qed.

Lemma mk_sum_pos s (Xs : seq tensor) : ~~ nilp Xs -> all (pos_train s) Xs -> mk_sum Xs = Ok (TSum s Xs) /\ pos_sum s (TSum s Xs).
Proof.
case: Xs => // X Xs _ h; have [_ e _ _] := train_shape (andP h).1.
by split; [rewrite /mk_sum e|apply/pos_sumP; exists (X :: Xs)].
Qed.

Lemma tneg_sum s (X : tensor) : pos_sum s X -> exists2 Y, tneg X = Ok Y & pos_sum s Y /\ forall i, inb s i -> den Y i = - den X i.
Proof.
case/pos_sumP=> Xs -> [n h]; rewrite /tneg tmul_sum.
have [Ys -> [sz hY g]] : exists2 Ys, mapM (fun x => tmul x (-1)) Xs = Ok Ys & [/\ size Ys = size Xs, all (pos_train s) Ys &
    forall i, inb s i -> \sum_(Y <- Ys) den Y i = - \sum_(X <- Xs) den X i].
  elim: Xs h {n} => [|Y Ys IH] /=; first by exists [::] => //; split=> // i _; rewrite !big_nil oppr0.
  case/andP=> /tneg_train[Z eZ [pZ gZ]] /IH[Zs -> [sz hZ gs]]; move: eZ; rewrite /tneg => -> /=.
  by exists (Z :: Zs) => //; split=> /=; [rewrite sz|rewrite pZ|move=> i hi; rewrite !big_cons gZ // gs // opprD].
have n' : ~~ nilp Ys by rewrite /nilp sz.
cbn [bind]; have [-> p] := mk_sum_pos n' hY; exists (TSum s Ys) => //; split=> // i hi.
by rewrite !den_sum g.
Qed.

Definition pos_any s (X : tensor) : bool := pos_train s X || pos_sum s X.

Lemma tadd_any s (X Y : tensor) : pos_train s X -> pos_any s Y -> exists2 Z, tadd X Y = Ok Z & pos_sum s Z /\
  forall i, den Z i = den X i + den Y i.
Proof.
move=> pX pY; have [wX sX _ _] := train_shape pX.
have [cs eX [_ _ _]] := pos_trainP _ _ pX; subst X.
case/orP: pY => [pY|/pos_sumP[Ys -> [n h]]].
  have [ds eY _] := pos_trainP _ _ pY; subst Y.
  have -> : tadd (TT cs) (TT ds) = mk_sum [:: TT cs; TT ds] by []. have h : all (pos_train s) [:: TT cs; TT ds] by rewrite /all pX pY.
  have [-> p] := mk_sum_pos (isT : ~~ nilp [:: TT cs; TT ds]) h; exists (TSum s [:: TT cs; TT ds]) => //; split=> // i.
  by rewrite den_sum !big_cons big_nil addr0.
have -> : tadd (TT cs) (TSum s Ys) = mk_sum (TT cs :: Ys) by []. have h' : all (pos_train s) (TT cs :: Ys) by apply/andP.
have [-> p] := mk_sum_pos (isT : ~~ nilp (TT cs :: Ys)) h'; exists (TSum s (TT cs :: Ys)) => //.
Qed.

Lemma tsub_any s (X Y : tensor) : pos_train s X -> pos_any s Y -> exists2 Z, tsub X Y = Ok Z & pos_sum s Z /\
  forall i, inb s i -> den Z i = den X i - den Y i.
Proof.
move=> pX pY; rewrite /tsub.
have [Y' -> [pY' g]] : exists2 Y', tneg Y = Ok Y' & pos_any s Y' /\ forall i, inb s i -> den Y' i = - den Y i.
  case/orP: pY => [/tneg_train|/tneg_sum] [Y' e [p g]]; exists Y' => //; split=> //; rewrite /pos_any p ?orbT //.
cbn [bind]; have [Z -> [pZ gZ]] := tadd_any pX pY'; exists Z => //; split=> // i hi.
by rewrite gZ g.
Qed.

Lemma sum_mul_pos s (Xs : seq tensor) (c : seq R) : ~~ nilp Xs -> all (pos_train s) Xs -> size Xs = size c ->
  exists2 Z, sum_mul_list Xs c = Ok Z & pos_sum s Z /\
   forall i, inb s i -> den Z i = \sum_(0 <= l < size Xs) nth 0 c l * den (nth (TT [::]) Xs l) i.
Proof.
move=> n h sz; rewrite /sum_mul_list sz eqxx.
have [Ys -> [szY hY g]] : exists2 Ys, mapM (fun p : tensor * R => tmul p.1 p.2) (zip Xs c) = Ok Ys & [/\ size Ys = size Xs, all (pos_train s) Ys &
    forall i, inb s i -> \sum_(Y <- Ys) den Y i = \sum_(0 <= l < size Xs) nth 0 c l * den (nth (TT [::]) Xs l) i].
  elim: Xs c h sz {n} => [|X Xs IH] [|a c] //= h sz; first by exists [::] => //; split=> // i _; rewrite !big_nil.
  case/andP: h => /(tmul_train a)[Z -> [pZ gZ]] h; case: sz => sz; cbn [bind].
  have [Zs -> [s2 h2 g2]] := IH _ h sz; cbn [bind]; exists (Z :: Zs) => //; split=> /=; [by rewrite s2|by rewrite pZ|].
  by move=> i hi; rewrite big_cons big_nat_recl // gZ // g2.
have n' : ~~ nilp Ys by rewrite /nilp szY.
cbn [bind]; have [-> p] := mk_sum_pos n' hY; exists (TSum s Ys) => //; split=> // i hi.
by rewrite den_sum g // sz.
Qed.

Lemma dot_train s (X Y : tensor) : pos_train s X -> pos_train s Y -> dot_of X Y = Ok (ipr s (den X) (den Y)).
Proof.
move=> pX pY; have [wX sX s0 _] := train_shape pX; have [wY sY _ _] := train_shape pY.
rewrite /dot_of (dotE false wX wY) ?sX //; first by rewrite /inner sX.
by case/pos_trainP: pX => cs -> _; case/pos_trainP: pY => ds -> _.
Qed.

Lemma norm_train s (X : tensor) : pos_train s X -> or_linalg (norm_of qr X) (fun v => v = Num.sqrt (ipr s (den X) (den X))).
Proof.
case/pos_trainP=> cs -> [w e p]; have := tt_normP (proj1 qrP) w p; rewrite /norm_of [tnorm _ _ _]/=.
by move=> h; apply: or_imp h _ => v ->; rewrite /sqnorm_of e.
Qed.

Lemma tdivf_train s (X : tensor) c : pos_train s X -> c != 0 -> exists2 Y, tdivf X c = Ok (Some Y) & pos_train s Y /\
  forall i, inb s i -> den Y i = den X i / c.
Proof.
move=> pX c0; rewrite /tdivf (negPf c0); have [Y -> [pY g]] := tmul_train (1 / c) pX; exists Y => //; split=> // i /g ->.
by rewrite div1r mulrC.
Qed.

(* ---- maps ---- *)
Definition map_pos (f : ttmap R) : bool := if f is MapMpo ms then allpos (mpo_rank ms) else true.

Lemma map_call_pos f s (cs : seq arr) : map_ok qr f s s -> map_pos f -> wf_tt cs -> tshape (TT cs) = s -> pos_tt cs ->
  or_linalg (map_call solve_tri f cs) (fun ys => pos_train s (TT ys)).
Proof.
move=> ok pf w e p; have hs : allpos s /\ allpos (tt_rank cs) by move: p; rewrite (pos_ttE w) e => /andP[].
case: f ok pf => [ms|q|ins outs call]; rewrite /map_ok /map_pos [map_call _ _ _]/=; [|  |move=> [_ _ h] _; apply: or_imp (h cs w e) _ => ys [wy sy ry _]; apply/pos_trainP; exists ys => //;
     by split=> //; rewrite (pos_ttE wy) sy hs.1 ry // hs.2].
  move=> [wm ei eo] pm; rewrite -ei in e; have [ys -> [wy sy ry _]] := callE wm w (esym e); rewrite /or_linalg.
  apply/pos_trainP; exists ys => //; rewrite sy eo; split=> //; rewrite (pos_ttE wy) sy eo hs.1 ry /=.
  elim: (mpo_rank ms) (tt_rank cs) pm hs.2 => [|a l IH] [|b k] //= /andP[ha hl] /andP[hb hk].
  by rewrite muln_gt0 ha hb IH.
move=> [_ hm hA enew] _; rewrite -e in hm hA enew.
have hm' : (p_mode q < size cs)%N by rewrite -(size_map (fun C : arr => dim C 1) cs).
have := backwardE qrP solP w hm' erefl hA enew; case: ifP => _; last by move=> ->.
case=> ys -> [wy sy ry _]; rewrite /or_linalg; apply/pos_trainP; exists ys => //; split=> //; first by rewrite sy.
by rewrite (pos_ttE wy) sy ry -(pos_ttE w).
Qed.

Lemma or_and (A : Type) (r : res A) (P Q : A -> Prop) : or_linalg r P -> or_linalg r Q -> or_linalg r (fun a => P a /\ Q a).
Proof. by case: r. Qed.

Lemma any_train s (X : tensor) : pos_any s X -> is_train s X \/ is_train_sum s X.
Proof.
case/orP=> [/pos_trainP[cs -> [w e _]]|/pos_sum_train]; [left|by right].
by apply/trainP; exists cs.
Qed.

Lemma mapsum_pos fs s (X : tensor) mi mo : ~~ nilp fs -> (forall f, List.In f fs -> map_ok qr f s s) -> all map_pos fs ->
  pos_any s X -> or_linalg (mapsum_call solve_tri (MapSum fs mi mo) X) (pos_sum s).
Proof.
move=> nf hf hp pX; set Xs := if X is TSum _ Xs then Xs else [:: X].
have [hXs nX] : all (pos_train s) Xs /\ ~~ nilp Xs.
  case/orP: pX; rewrite /Xs; last by case/pos_sumP=> Ys -> [].
  by move=> h; case/pos_trainP: (h) => cs eX _; subst X; rewrite all_seq1.
have -> : mapsum_call solve_tri (MapSum fs mi mo) X =
  bind (mapM (fun p : ttmap R * tensor => do cs <- cores_of p.2; do ys <- map_call solve_tri p.1 cs; Ok (TT ys)) [seq (f, Y) | f <- fs, Y <- Xs]) (@mk_sum R).
  by rewrite /mapsum_call /Xs; case/orP: pX => [/pos_trainP[cs ->]|/pos_sumP[Ys ->]].
apply: (@or_bind _ _ _ _ (fun Zs => size Zs = (size fs * size Xs)%N /\ all (pos_train s) Zs)).
  have : forall p, List.In p [seq (f, Y) | f <- fs, Y <- Xs] -> [/\ map_ok qr p.1 s s, map_pos p.1 & pos_train s p.2].
    move=> p; elim: fs hf hp {nf} => [|f fs IH] //= hf /andP[hp1 hp2] /List.in_app_iff[|].
      elim: (Xs) hXs => [|Y Ys IHY] //= /andP[hY hYs] [<-|]; last exact: IHY.
      by split=> //; apply: hf; left.
    by apply: IH => // g hg; apply: hf; right.
  rewrite -(size_allpairs pair); elim: [seq (x, y) | x <- fs, y <- Xs] => [|p l IH] //= h.
  have [h1 h2 /pos_trainP[cs e [w es ps]]] := h p (or_introl erefl); rewrite e [cores_of _]/=.
  apply: (@or_bind _ _ _ _ (pos_train s)); first by apply: (or_bind (map_call_pos h1 h2 w es ps)) => ys hy; exact: hy.
  move=> Z hZ; apply: (or_bind (IH (fun q hq => h q (or_intror hq)))) => Zs [sz hZs].
  by rewrite /or_linalg /= sz; split=> //; apply/andP.
move=> Zs [sz hZs]; have n : ~~ nilp Zs.
  by rewrite /nilp sz muln_eq0 negb_or; apply/andP; split; [case: (fs) nf|case: (Xs) nX].
by have [-> h] := mk_sum_pos n hZs.
Qed.

Lemma applyE fs pre s (X : tensor) mi mo : ~~ nilp fs -> (forall f, List.In f fs -> map_ok qr f s s) -> all map_pos fs -> pre_ok qr pre s ->
  pos_any s X -> or_linalg (apply_A_pr solve_tri (MapSum fs mi mo) pre X) (fun Y => pos_sum s Y /\
    forall i, inb s i -> den Y i = op_act fs pre s (den X) i).
Proof.
move=> nf hf hp hpre pX; rewrite /apply_A_pr.
apply: (or_bind (or_and (mapsum_pos mi mo nf hf hp pX) (mapsum_callE qrP solP mi mo nf hf (any_train pX)))) => Y [pY [_ gY]].
case: pre hpre => [p|] hpre; last by split=> // i hi; rewrite gY.
case/pos_sumP: (pY) => Ys eY _.
have pY' : pos_any s Y by rewrite /pos_any pY orbT.
have ok g : List.In g [:: MapPre p] -> map_ok qr g s s by move=> [<-|].
have -> : bind (tensors_of Y) (fun Ys => do Zs <- mapM (fun Z => do cs <- cores_of Z; do zs <- precond_backward solve_tri p cs; Ok (TT zs)) Ys; mk_sum Zs) =
   mapsum_call solve_tri (MapSum [:: MapPre p] mi mo) Y.
  rewrite eY /mapsum_call [tensors_of _]/=; cbn [bind]; congr (bind _ _).
  by rewrite /= cats0; elim: (Ys) => [|Z Zs IH] //=; rewrite IH.
have h := or_and (mapsum_pos mi mo (isT : ~~ nilp [:: MapPre p]) ok isT pY') (mapsum_callE qrP solP mi mo (isT : ~~ nilp [:: MapPre p]) ok (any_train pY')).
apply: or_imp h _ => Z [pZ [_ gZ]]; split=> // i hi; rewrite gZ // /op_act /pre_act /maps_act big_seq1.
by have [ext _] := map_act_lin hpre; apply: ext.
Qed.
End G.
