(* The methods of Heap.v refine the value-level functions of Tensor.v. *)
From mathcomp Require Import all_ssreflect all_algebra.
From mathcomp.zify Require Import zify.
From Verif Require Import Py Nd Utils Tensor NdThy Heap HeapSpec HeapThy1.
Set Implicit Arguments. Unset Strict Implicit. Unset Printing Implicit Defensive.
Import GRing.Theory.
Local Open Scope ring_scope.

Arguments refs : simpl never.
Section Thy.
Variable R : comRingType.
Notation arr := (nd R).
Notation tensor := (tensor R).
Notation heap := (heap R).
Implicit Types (h : heap) (v : view) (o : nat).

Lemma perm_inb (s perm i : seq nat) : perm_eq perm (iota 0 (size s)) ->
  inb [seq nth 0%N s k | k <- perm] i ->
  inb s [seq nth 0%N i (index k perm) | k <- iota 0 (size s)].
Proof.
move=> P Hi; apply/inbP; split=> [|k Hk]; first by rewrite size_map size_iota.
rewrite (nth_map 0%N) ?size_iota // nth_iota // add0n.
have kin : k \in perm by rewrite (perm_mem P) mem_iota add0n.
have := inb_nth Hi; rewrite size_map => /(_ (index k perm)); rewrite index_mem => /(_ kin).
by rewrite (nth_map 0%N) ?index_mem // nth_index.
Qed.

Lemma vtransE h v a perm : rd h v = Some a ->
  match transpose a perm with
  | Ok a' => exists v', [/\ vtrans v perm = Ok v', rd h v' = Some a' & vbuf v' = vbuf v]
  | Err e => vtrans v perm = Err e
  end.
Proof.
move=> Ea; have [W S] := rd_wf Ea.
rewrite /transpose /vtrans /ndim S; case: ifP => P //.
have Ed : [seq dim a k | k <- perm] = [seq vdim v k | k <- perm].
  by apply: eq_map => k; rewrite /dim /vdim S.
eexists; split; [by []| |by []].
move: Ea; rewrite {1}/rd; case Eb: (at_ _ _) => [b|] //; case: ifP => // /andP [Hall /eqP Hsz] [Ea].
rewrite /rd /= Eb /tab Ed; set s := [seq vdim v k | k <- perm].
set F := fun p => ravel (vshape v) [seq nth 0%N (unravel s p) (index k perm) | k <- iota 0 (size (vshape v))].
have HF p : (p < prods s)%N -> (F p < size (voff v))%N.
  by move=> Hp; rewrite Hsz /F ravel_lt //; apply: perm_inb => //; apply: inb_unravel.
have -> : all (fun k => k < size b)%N [seq nth 0%N (voff v) (F p) | p <- iota 0 (prods s)].
  apply/allP => k /mapP [p]; rewrite mem_iota add0n => /= Hp ->.
  by move/allP: Hall; apply; apply: mem_nth; apply: HF.
rewrite size_map size_iota eqxx /=; congr (Some (Nd _ _)).
rewrite -map_comp; apply/eq_in_map => p; rewrite mem_iota add0n => /= Hp.
rewrite /get -Ea /= (nth_map 0%N) //; exact: HF.
Qed.

Lemma vtrans_mapE h vs cs perm : rds h vs = Some cs ->
  match mapM (fun C => transpose C perm) cs with
  | Ok cs' => exists vs', mapM (fun v => vtrans v perm) vs = Ok vs' /\ rds h vs' = Some cs'
  | Err e => mapM (fun v => vtrans v perm) vs = Err e
  end.
Proof.
elim: vs cs => [|v vs IH] cs /=; first by case=> <-; exists [::].
rewrite {1}/rds /=; case E: (rd h v) => [a|] //; case E': (opts _) => [r|] // [<-] /=.
have := vtransE perm E; case: (transpose a perm) => [a'|e] /=; last by move=> ->.
case=> v' [-> Ev' _] /=; have := IH _ E'; case: (mapM _ r) => [cs'|e] /=; last by move=> ->.
by case=> vs' [-> E2]; exists (v' :: vs'); split=> //; rewrite /rds /= Ev' -/(rds h vs') E2.
Qed.

(* one list of sums of calls *)
Lemma mapHE n (A : Type) (f : heap -> A -> res (heap * nat)) (g : tensor -> res tensor) h
    (os : seq A) (w : heap -> A -> option tensor) Xs :
  (forall h1 h2 a X, ext h1 h2 -> w h1 a = Some X -> w h2 a = Some X) ->
  (forall h1 a X, w h1 a = Some X -> refs n h1 (f h1 a) (g X)) ->
  opts (map (w h) os) = Some Xs ->
  match mapM g Xs with
  | Ok Ys => exists h' os', [/\ mapH f h os = Ok (h', os'), ext h h', caches h' = caches h
                              & opts (map (val n h') os') = Some Ys]
  | Err e => mapH f h os = Err e
  end.
Proof.
move=> Hw Hf; elim: os h Xs => [|o os IH] h Xs.
  by case=> <- /=; exists h, [::]; split=> //; apply: ext_refl.
rewrite /=; case E: (w h o) => [X|] //; case E': (opts _) => [r|] // [<-] /=.
have := Hf _ _ _ E; rewrite /refs; case: (g X) => [Y|e] /=; last by move=> ->.
case=> h1 [o1 [-> X1 C1 V1]] /=.
have := IH h1 r (opts_imp (fun b a => Hw _ _ b a X1) E').
case: (mapM g r) => [Ys|e] /=; last by move=> ->.
case=> h2 [os2 [-> X2 C2 V2]] /=; exists h2, (o1 :: os2); split=> //.
- exact: ext_trans X1 X2.
- by rewrite C2.
- by rewrite /= V2 (val_ext X2 V1).
Qed.

Lemma tT_sum s (Xs : seq tensor) : tT (TSum s Xs) = (do Ys <- mapM (@tT R) Xs; mk_sum Ys).
Proof.
rewrite /=; congr bind; elim: Xs => [|X Xs IH] //=.
by rewrite IH.
Qed.
Lemma tmul_sum s (Xs : seq tensor) c :
  tmul (TSum s Xs) c = (do Ys <- mapM (fun X => tmul X c) Xs; mk_sum Ys).
Proof.
rewrite /=; congr bind; elim: Xs => [|X Xs IH] //=.
by rewrite IH.
Qed.

(* destruct the value of an object *)
Lemma val_inv n h o X : val n.+1 h o = Some X ->
  match X with
  | Dense a => exists v, at_ (objs h) o = Some (ODense v) /\ rd h v = Some a
  | Sparse s i d => exists v, at_ (objs h) o = Some (OSparse s i v) /\ rd h v = Some (Nd [:: size d] d)
  | TT cs => exists l vs, [/\ at_ (objs h) o = Some (OTT [seq dim C 1 | C <- cs] (tt_rank cs) l),
       at_ (alists h) l = Some vs & rds h vs = Some cs]
  | CP cs => exists l vs C0 r, [/\ at_ (objs h) o = Some (OCP [seq dim C 0 | C <- cs] (dim C0 1) l),
       at_ (alists h) l = Some vs, rds h vs = Some cs & cs = C0 :: r]
  | Tucker fs c => exists l vs v, [/\ at_ (objs h) o = Some (OTucker [seq dim U 1 | U <- fs] (tucker_rank fs) l v),
       at_ (alists h) l = Some vs, rds h vs = Some fs & rd h v = Some c]
  | TSum s Xs => exists l os, [/\ at_ (objs h) o = Some (OSum s l), at_ (tlists h) l = Some os &
       opts (map (val n h) os) = Some Xs]
  end.
Proof.
rewrite /=; case E: (at_ _ o) => [[v|s i v|s r l|s r l|s r l c|s l]|] //.
- by case E': (rd h v) => [a|] // [<-]; exists v.
- case E': (rd h v) => [a|] //; case: ifP => // /eqP Es [<-]; exists v; split=> //.
  by rewrite E'; case: a Es {E'} => sa d /= ->.
- case El: (at_ _ l) => [vs|] //; case Er: (rds _ _) => [cs|] //; case: ifP => // /andP [/eqP Es /eqP Err] [<-].
  by exists l, vs; rewrite -Es -Err.
- case El: (at_ _ l) => [vs|] //; case Er: (rds _ _) => [[|C0 cs]|] //; case: ifP => // /andP [/eqP Es /eqP Err] [<-].
  by exists l, vs, C0, cs; rewrite /= -Es -Err.
- case El: (at_ _ l) => [vs|] //; case Er: (rds _ _) => [fs|] //; case Ec: (rd _ _) => [c'|] //.
  case: ifP => // /andP [/eqP Es /eqP Err] [<-]; by exists l, vs, c; rewrite -Es -Err.
- by case El: (at_ _ l) => [os|] //; case Eo: (opts _) => [Xs|] // [<-]; exists l, os.
Qed.

Lemma op_TE n h o X : val n h o = Some X -> refs n h (op_T n h o) (tT X).
Proof.
elim: n h o X => [|n IH] h o X // /val_inv.
case: X => [a|s i d|cs|cs|fs c|s Xs].
- case=> v [Eo Ev]; rewrite /op_T Eo /= /dense_T.
  have S := (rd_wf Ev).2.
  have := vtransE (rev (iota 0 (size (vshape v)))) Ev; rewrite /ndim S.
  case: (transpose _ _) => [a'|e] /=; last by move=> ->.
  case=> v' [-> Ev' _] /=; apply: new_objE.
  by rewrite /= at_rcons (rd_ext (ext_obj _ _) Ev').
- case=> v [Eo Ev]; rewrite /op_T Eo /=; apply: new_objE.
  by rewrite /= at_rcons (rd_ext (ext_obj _ _) Ev) /= eqxx.
- case=> l [vs [Eo El Er]]; rewrite /op_T Eo /= El /= /tt_T.
  have := vtrans_mapE [:: 2; 1; 0]%N (rds_rev Er); case: (mapM _ (rev cs)) => [cs'|e] /=; last by move=> ->.
  case=> vs' [-> Er']; rewrite /=.
  apply: (refs_ext (ext_alist h vs')) => //; apply: (@new_ttE _ n _ _ vs'); first by rewrite /= at_rcons.
  exact: rds_ext (ext_alist h vs') Er'.
- case=> l [vs [C0 [r [Eo El Er E]]]]; rewrite /op_T Eo /= El /=.
  apply: (refs_ext (ext_alist h (rev vs))) => //.
  have : rev cs != [::] by rewrite -size_eq0 size_rev E.
  have Er' := rds_ext (ext_alist h (rev vs)) (rds_rev Er).
  case Ec: (rev cs) => [|D0 ds] // _; rewrite Ec in Er'.
  by apply: (@new_cpE _ n _ _ (rev vs)) => //; rewrite /= at_rcons.
- case=> l [vs [v [Eo El Er Ev]]]; rewrite /op_T Eo /= El /= size_map.
  have := vtransE (rev (iota 0 (size fs))) Ev; case: (transpose _ _) => [c'|e] /=; last by move=> ->.
  case=> v' [-> Ev' _] /=.
  apply: (refs_ext (ext_alist h (rev vs))) => //.
  apply: (@new_tuckerE _ n _ _ (rev vs)); first by rewrite /= at_rcons.
    exact: rds_ext (ext_alist _ _) (rds_rev Er).
  exact: rd_ext (ext_alist _ _) Ev'.
- case=> l [os [Eo El V]]; rewrite tT_sum /= Eo /= El /=.
  have := @mapHE n _ (op_T n) (@tT R) h os (val n) Xs (fun h1 h2 a X E => val_ext E) IH V.
  case: (mapM _ Xs) => [Ys|e] /=; last by move=> ->.
  case=> h' [os' [-> X' C' V']] /=; apply: (refs_ext X') => //; exact: sum_ofE.
Qed.

End Thy.
