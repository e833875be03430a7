(* Frame properties: what calls leave unchanged. *)
From mathcomp Require Import all_ssreflect all_algebra.
From mathcomp.zify Require Import zify.
From Verif Require Import Py Nd Utils Tensor NdThy Heap HeapSpec HeapThy1 HeapThy2 HeapThy3.
Set Implicit Arguments. Unset Strict Implicit. Unset Printing Implicit Defensive.
Import GRing.Theory.
Local Open Scope ring_scope.

Section Thy.
Variable R : comRingType.
Notation arr := (nd R).
Notation tensor := (tensor R).
Notation heap := (heap R).
Implicit Types (h : heap) (v : view) (o : nat).

(* a call extends the heap and does not touch the caches *)
Definition keeps h h' := ext h h' /\ caches h' = caches h.
Lemma keeps_refl h : keeps h h. Proof. by split=> //; apply: ext_refl. Qed.
Lemma keeps_trans h2 h1 h3 : keeps h1 h2 -> keeps h2 h3 -> keeps h1 h3.
Proof. by move=> [a1 a2] [b1 b2]; split; [exact: ext_trans a1 b1|rewrite b2]. Qed.
Lemma keeps_arr h a : keeps h (new_arr h a).1. Proof. by split=> //; apply: ext_arr. Qed.
Lemma keeps_alist h a : keeps h (new_alist h a).1. Proof. by split=> //; apply: ext_alist. Qed.
Lemma keeps_tlist h a : keeps h (new_tlist h a).1. Proof. by split=> //; apply: ext_tlist. Qed.
Lemma keeps_obj h a : keeps h (new_obj h a).1. Proof. by split=> //; apply: ext_obj. Qed.
Lemma keeps_arrs h a : keeps h (new_arrs h a).1.
Proof. by split; [apply: ext_arrs|apply: caches_arrs]. Qed.

Definition kp {A} h (r : res (heap * A)) := forall h' a, r = Ok (h', a) -> keeps h h'.
Lemma kp_err A h e : kp h (Err e : res (heap * A)). Proof. by []. Qed.
Lemma kp_ok A h (p : heap * A) : keeps h p.1 -> kp h (Ok p).
Proof. by move=> K h' a [E]; rewrite E in K. Qed.
Lemma kp_bind A B h (x : res A) (f : A -> res (heap * B)) :
  (forall a, x = Ok a -> kp h (f a)) -> kp h (bind x f).
Proof. by case: x => [a|e] //= H; apply: H. Qed.
Lemma kp_bindp A B h (x : res (heap * A)) (f : heap * A -> res (heap * B)) :
  kp h x -> (forall h' a, keeps h h' -> kp h' (f (h', a))) -> kp h (bind x f).
Proof.
case: x => [[h1 a]|e] //= Kx Kf h' b E; exact: keeps_trans (Kx _ _ erefl) (Kf _ _ (Kx _ _ erefl) _ _ E).
Qed.
Lemma kp_ext A h h1 (r : res (heap * A)) : keeps h h1 -> kp h1 r -> kp h r.
Proof. by move=> K Kr h' a E; apply: keeps_trans K (Kr _ _ E). Qed.

Lemma kp_mapH A (f : heap -> A -> res (heap * nat)) l : (forall h a, kp h (f h a)) ->
  forall h, kp h (mapH f h l).
Proof.
move=> Kf; elim: l => [|x l IH] h /=; first by apply: kp_ok; apply: keeps_refl.
apply: kp_bindp => [|h1 a K1]; first exact: Kf.
by apply: kp_bindp => [|h2 b K2]; [exact: IH|apply: kp_ok; apply: keeps_refl].
Qed.

Lemma kp_tt h l : kp h (new_tt h l).
Proof. by apply: kp_bind => vs _; apply: kp_ok; apply: keeps_obj. Qed.
Lemma kp_cp h l : kp h (new_cp h l).
Proof. by apply: kp_bind => vs _; apply: kp_bind => C _; apply: kp_ok; apply: keeps_obj. Qed.
Lemma kp_tucker h l c : kp h (new_tucker h l c).
Proof. by apply: kp_bind => vs _; apply: kp_ok; apply: keeps_obj. Qed.
Lemma kp_sum h l : kp h (new_sum h l).
Proof. by apply: kp_bind => os _; apply: kp_bind => o _; apply: kp_bind => x _; apply: kp_ok; apply: keeps_obj. Qed.
Lemma kp_sum_of h os : kp h (sum_of h os).
Proof. by apply: kp_ext (keeps_tlist h os) _; apply: kp_sum. Qed.

Lemma kp_T n h o : kp h (op_T n h o).
Proof.
elim: n h o => [|n IH] h o /=; first exact: kp_err.
apply: kp_bind => -[v|s i v|s r l|s r l|s r l c|s l] _.
- by apply: kp_bind => v' _; apply: kp_ok; apply: keeps_obj.
- by apply: kp_ok; apply: keeps_obj.
- apply: kp_bind => vs _; apply: kp_bind => vs' _.
  by apply: kp_ext (keeps_alist h vs') _; apply: kp_tt.
- by apply: kp_bind => vs _; apply: kp_ext (keeps_alist h (rev vs)) _; apply: kp_cp.
- apply: kp_bind => vs _; apply: kp_bind => vs' _.
  by apply: kp_ext (keeps_alist h (rev vs)) _; apply: kp_tucker.
- apply: kp_bind => os _; apply: kp_bindp => [|h1 a K1]; first exact: kp_mapH.
  exact: kp_sum_of.
Qed.

Lemma kp_mul n c h o : kp h (op_mul n c h o).
Proof.
elim: n h o => [|n IH] h o /=; first exact: kp_err.
apply: kp_bind => -[v|s i v|s r l|s r l|s r l co|s l] _.
- apply: kp_bind => a _; apply: kp_ext (keeps_arr h (nscale c a)) _.
  by apply: kp_ok; apply: keeps_obj.
- apply: kp_bind => a _; apply: kp_ext (keeps_arr h (Nd (nshape a) [seq e * c | e <- ndata a])) _.
  by apply: kp_ok; apply: keeps_obj.
- apply: kp_bind => vs _; apply: kp_bind => cs _; case: (rev cs) => [|C r'] //.
  have := keeps_arrs h (rev (nscale c C :: r')); case: (new_arrs _ _) => [h1 vs'] /= K.
  by apply: kp_ext (keeps_trans K (keeps_alist h1 vs')) _; apply: kp_tt.
- apply: kp_bind => -[|v0 vs] _ //; apply: kp_bind => C _.
  apply: kp_ext (keeps_trans (keeps_arr h (nscale c C)) (keeps_alist _ ((new_arr h (nscale c C)).2 :: vs))) _.
  exact: kp_cp.
- apply: kp_bind => a _; apply: kp_ext (keeps_arr h (nscale c a)) _; exact: kp_tucker.
- apply: kp_bind => os _; apply: kp_bindp => [|h1 a K1]; first exact: kp_mapH.
  exact: kp_sum_of.
Qed.

Lemma kp_mul_list n cs h o : kp h (op_mul_list n cs h o).
Proof.
apply: kp_bind => -[v|s i v|s r l|s r l|s r l co|s l] _ //.
apply: kp_bind => os _; case: ifP => // _; apply: kp_bindp => [|h1 a K1]; last exact: kp_sum_of.
by apply: kp_mapH => h' p; apply: kp_mul.
Qed.

Lemma kp_add h o1 o2 : kp h (op_add h o1 o2).
Proof.
apply: kp_bind => x _; apply: kp_bind => y _.
case: y => [?|???|???|???|????|??]; case: x => [?|???|???|???|????|??]; try exact: kp_sum_of.
all: apply: kp_bind => zs _; try exact: kp_sum_of.
by apply: kp_bind => ys _; exact: kp_sum_of.
Qed.

Lemma kp_sub n h o1 o2 : kp h (op_sub n h o1 o2).
Proof. by apply: kp_bindp => [|h1 a K1]; [exact: kp_mul|exact: kp_add]. Qed.

Lemma kp_view h r : kp h (new_view h r).
Proof. by apply: kp_bind => a _; apply: kp_ok; apply: keeps_arr. Qed.

Lemma kp_to_numpy n h o : kp h (op_to_numpy n h o).
Proof.
elim: n h o => [|n IH] h o; first exact: kp_err.
cbn [op_to_numpy]; apply: kp_bind => -[v|s i v|s r l|s r l|s r l co|s l] _.
- by apply: kp_ok; apply: keeps_refl.
- by apply: kp_bind => a _; apply: kp_view.
- apply: kp_bind => vs _; apply: kp_bind => cs _; apply: kp_bind => a _.
  by case: vs => [|v [|v' vs]]; apply: kp_ok; [exact: keeps_arr|exact: keeps_refl|exact: keeps_arr].
- by apply: kp_bind => vs _; apply: kp_bind => cs _; apply: kp_view.
- apply: kp_bind => vs _; apply: kp_bind => cs _; apply: kp_bind => c _; apply: kp_bind => a _.
  by case: vs => [|v vs]; apply: kp_ok; [exact: keeps_refl|exact: keeps_arr].
- apply: kp_bind => os _; rewrite [new_arr h _]new_arrE.
  set vz := (new_arr h _).2; set h0 := (new_arr h _).1.
  pose goh := fix go (h : heap) (l : seq nat) := match l with
            | [::] => Ok h
            | x :: l' =>
                do p <- op_to_numpy n h x;
                do a <- deref (rd p.1 p.2);
                do acc <- deref (rd p.1 vz);
                do acc' <- iadd acc a;
                go (set_bufs p.1 (set_nth [::] (bufs p.1) (vbuf vz) (ndata acc'))) l'
            end.
  rewrite -/goh.
  suff H : forall hk h', keeps h hk -> (size (bufs h) < size (bufs hk))%N -> goh hk os = Ok h' -> keeps h h'.
    case E: (goh h0 os) => [h'|e] //= _ _ [<- _]; apply: H E; first exact: keeps_arr.
    by rewrite /h0 /= size_rcons.
  elim: os => [|x os IHo] hk h' Kk Lk; first by case=> <-.
  rewrite /=; have := IH hk x; case: (op_to_numpy n hk x) => [[h1 v1]|e] //= /(_ _ _ erefl) K1.
  case: (rd h1 v1) => [a|] //=; case: (rd h1 vz) => [acc|] //=; case: (iadd acc a) => [acc'|] //=.
  have L1 : (size (bufs h) < size (bufs h1))%N.
    by apply: leq_trans Lk _; case: K1 => -[S _ _ _] _; apply: sub_size.
  apply: IHo; last by rewrite /= size_set_nth leq_max L1 orbT.
  have [[Sb Sa St So] C] := keeps_trans Kk K1; split=> //; split=> //= k b Ek.
  by rewrite at_set //; case: eqP => [E|_]; [have := at_lt Ek; rewrite E ltnn|apply: Sb].
Qed.

Lemma kp_dense n h o : kp h (op_dense n h o).
Proof. by apply: kp_bindp => [|h1 a K1]; [exact: kp_to_numpy|apply: kp_ok; apply: keeps_obj]. Qed.

Lemma kp_to_sparse h o : kp h (op_to_sparse h o).
Proof.
apply: kp_bind => -[v|s i v|s r l|s r l|s r l co|s l] _ //.
apply: kp_bind => a _; rewrite [to_sparse a]/=; cbn -[new_arr new_obj]; case: ifP => _.
  by apply: kp_ok; apply: keeps_obj.
apply: kp_ext (keeps_arr h (Nd [:: size (ndata a)] (ndata a))) _.
by apply: kp_ok; apply: keeps_obj.
Qed.

Lemma kp_split h o n : kp h (op_split h o n).
Proof.
apply: kp_bind => -[v|s i v|s r l|s r l|s r l co|s l] _ //; case: ifP => // _.
apply: kp_bindp => [|h1 a K1]; last exact: kp_sum_of.
by apply: kp_mapH => h' k; apply: kp_ok; apply: keeps_obj.
Qed.

Lemma kp_tt_add h o1 o2 : kp h (op_tt_add h o1 o2).
Proof.
apply: kp_bind => x _; apply: kp_bind => y _.
case: x => [?|???|? ? l1|???|????|??] //; case: y => [?|???|? ? l2|???|????|??] //.
apply: kp_bind => vs1 _; apply: kp_bind => vs2 _; apply: kp_bind => cs1 _; apply: kp_bind => cs2 _; apply: kp_bind => a3 _.
have := keeps_arrs h a3; case: (new_arrs _ _) => [h1 vs'] /= K.
by apply: kp_ext (keeps_trans K (keeps_alist h1 vs')) _; apply: kp_tt.
Qed.

Lemma kp_sweep f h o : kp h (op_sweep f h o).
Proof.
apply: kp_bind => x _; case: x => [?|???|? ? l1|???|????|??] //.
apply: kp_bind => vs1 _; apply: kp_bind => cs1 _; apply: kp_bind => a3 _.
case: vs1 => [|v1 [|v2 vs1]].
- have := keeps_arrs h a3; case: (new_arrs _ _) => [h1 vs'] /= K.
  by apply: kp_ext (keeps_trans K (keeps_alist h1 vs')) _; apply: kp_tt.
- by apply: kp_ext (keeps_alist h [:: v1]) _; apply: kp_tt.
have := keeps_arrs h a3; case: (new_arrs _ _) => [h1 vs'] /= K.
by apply: kp_ext (keeps_trans K (keeps_alist h1 vs')) _; apply: kp_tt.
Qed.

Lemma ext_gather h o idx h' xs : op_gather h o idx = Ok (h', xs) -> ext h h'.
Proof.
rewrite /op_gather; case: (at_ _ o) => [[v|s i v|s r l|s r l|s r l c|s l]|] //=.
- case: (ravel_multi _ _ _) => [ks|] //=; case: (cache_get _ _) => [d|] /=.
    by case=> <- _; apply: ext_refl.
  case: (rd h v) => [a|] //=; case: (sparse_dict _ _ _) => [d|] //= [<- _]; by split.
- case: (at_ _ l) => [vs|] //=; case: (rds h vs) => [cs|] //=; case: (tt_gather _ _) => [x|] //= [<- _].
  exact: ext_refl.
- case: (at_ _ l) => [vs|] //=; case: (rds h vs) => [cs|] //=; case: (cp_gather _ _) => [x|] //= [<- _].
  exact: ext_refl.
Qed.

Definition is_gather (c : call R) := if c is CGather _ _ then true else false.

Lemma ret_inv A (f : A -> answer R) (r : res (heap * A)) h' a : ret f r = Ok (h', a) ->
  exists b, r = Ok (h', b) /\ a = f b.
Proof. by case: r => [[h1 b]|e] //= [<- <-]; exists b. Qed.

Lemma exec_keeps n h c h' a : not_in_place c -> ~~ is_gather c -> exec n h c = Ok (h', a) -> keeps h h'.
Proof.
case: c => //= [x|vs|os|v|s i v|l|l|l co|l|o|o c|o cs|o|o1 o2|o1 o2|o|o|o|o k|o1 o2|f o] _ _.
all: try by case=> <- _; first [exact: keeps_arr|exact: keeps_alist|exact: keeps_tlist|exact: keeps_obj].
all: case/ret_inv=> b [E _]; move: E; first
  [exact: kp_tt|exact: kp_cp|exact: kp_tucker|exact: kp_sum|exact: kp_T|exact: kp_mul|exact: kp_mul_list
  |exact: kp_add|exact: kp_sub|exact: kp_to_numpy|exact: kp_dense|exact: kp_to_sparse|exact: kp_split
  |exact: kp_tt_add|exact: kp_sweep].
Qed.

Lemma exec_ext n h c h' a : not_in_place c -> exec n h c = Ok (h', a) -> ext h h'.
Proof.
move=> P; case G: (is_gather c); last by case/(exec_keeps P (negbT G)).
case: c P G => // o idx _ _ /= /ret_inv [b [E _]]; exact: ext_gather E.
Qed.

Lemma run_ext n h cs : all (@not_in_place R) cs -> ext h (run n h cs).
Proof.
elim: cs h => [|c cs IH] h /=; first by move=> _; apply: ext_refl.
case/andP=> Pc Pcs; apply: ext_trans (IH _ Pcs); case E: (exec n h c) => [[h' a]|e] /=.
  exact: exec_ext Pc E.
exact: ext_refl.
Qed.

(* the memoized dictionaries stay up to date *)
Lemma fresh_keeps h h' : keeps h h' -> caches_fresh h -> caches_fresh h'.
Proof.
move=> [X C] F o d; rewrite C => /F [s [inds [v [a [Eo Ea Ed]]]]].
exists s, inds, v, a; split=> //; last exact: rd_ext X Ea.
by case: X => _ _ _ H; apply: H.
Qed.

Lemma exec_fresh n h c h' a : not_in_place c -> exec n h c = Ok (h', a) -> caches_fresh h -> caches_fresh h'.
Proof.
move=> P E F; case G: (is_gather c); last first.
  by apply: fresh_keeps F; apply: exec_keeps P (negbT G) E.
case: c P G E => // o idx _ _ /= /ret_inv [b [E _]]; move: E; rewrite /op_gather.
case Eo: (at_ _ o) => [[v|s i v|s r l|s r l|s r l c|s l]|] //=.
- case: (ravel_multi _ _ _) => [ks|] //=; case Ec: (cache_get _ _) => [d|] /=; first by case=> <- _.
  case Ev: (rd h v) => [x|] //=; case Ed: (sparse_dict _ _ _) => [d|] //= [<- _] o' d' /=.
  case: eqP => [<- [<-]|_ /F]; first by exists s, i, v, x.
  by case=> s' [i' [v' [x' [? ? ?]]]]; exists s', i', v', x'.
- case: (at_ _ l) => [vs|] //=; case: (rds h vs) => [cs|] //=; case: (tt_gather _ _) => [x|] //= [<- _] //.
- case: (at_ _ l) => [vs|] //=; case: (rds h vs) => [cs|] //=; case: (cp_gather _ _) => [x|] //= [<- _] //.
Qed.

Lemma run_fresh n h cs : all (@not_in_place R) cs -> caches_fresh h -> caches_fresh (run n h cs).
Proof.
elim: cs h => [|c cs IH] h //= /andP [Pc Pcs] F; apply: IH => //.
case E: (exec n h c) => [[h' a]|e] //=; exact: exec_fresh Pc E F.
Qed.

(* gather, when the dictionaries are up to date *)
Lemma op_gatherE n h o X idx : caches_fresh h -> val n h o = Some X ->
  match gather X idx with
  | Ok xs => exists h', op_gather h o idx = Ok (h', xs)
  | Err e => op_gather h o idx = Err e
  end.
Proof.
move=> F; case: n => [|n] // /val_inv.
case: X => [a|s i d|cs|cs|fs co|s Xs]; rewrite /op_gather.
- by case=> v [-> _].
- case=> v [Eo Ev]; rewrite Eo /= /sparse_gather; case: (ravel_multi s idx _) => [ks|e] //=.
  case Ec: (cache_get _ _) => [dc|] /=.
    have [s' [i' [v' [a [Eo' Ea Ed]]]]] := F _ _ Ec.
    move: Eo'; rewrite Eo => -[Es Ei Evv]; move: Ed; rewrite -Es -Ei.
    have -> : ndata a = d by move: Ea; rewrite -Evv Ev => -[<-].
    by move=> -> /=; exists h.
  rewrite Ev /=; case: (sparse_dict s i d) => [dc|e] //=; by eexists.
- case=> l [vs [-> El Er]]; rewrite /= El /= Er /=; case: (tt_gather cs idx) => [x|] //=; by exists h.
- case=> l [vs [C0 [r [-> El Er _]]]]; rewrite /= El /= Er /=; case: (cp_gather cs idx) => [x|] //=; by exists h.
- by case=> l [vs [v [-> _ _ _]]].
- by case=> l [os [-> _ _]].
Qed.

End Thy.
