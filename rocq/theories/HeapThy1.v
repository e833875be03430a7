(* Basic facts about heaps: extension, allocation, reading. *)
From mathcomp Require Import all_ssreflect all_algebra.
From mathcomp.zify Require Import zify.
From Verif Require Import Py Nd Utils Tensor NdThy Heap HeapSpec.
Set Implicit Arguments. Unset Strict Implicit. Unset Printing Implicit Defensive.
Import GRing.Theory.
Local Open Scope ring_scope.

Section A.
Variable A : Type.
Implicit Types (l : seq A).

Lemma at_lt l k x : at_ l k = Some x -> (k < size l)%N.
Proof. by rewrite /at_ => E; rewrite ltnNge; apply/negP => H; rewrite nth_default ?size_map in E. Qed.
Lemma at_nth d l k : (k < size l)%N -> at_ l k = Some (nth d l k).
Proof. by move=> H; rewrite /at_ (nth_map d). Qed.
Lemma at_Nth d l k x : at_ l k = Some x -> nth d l k = x.
Proof. by move=> E; move: (E); rewrite (at_nth d (at_lt E)) => -[]. Qed.
Lemma at_rcons l x : at_ (rcons l x) (size l) = Some x.
Proof. by rewrite (at_nth x) ?size_rcons // nth_rcons ltnn eqxx. Qed.

Definition sub l l' := forall k x, at_ l k = Some x -> at_ l' k = Some x.
Lemma sub_refl l : sub l l. Proof. by []. Qed.
Lemma sub_trans l2 l1 l3 : sub l1 l2 -> sub l2 l3 -> sub l1 l3.
Proof. by move=> H1 H2 k x /H1/H2. Qed.
Lemma sub_rcons l x : sub l (rcons l x).
Proof. by move=> k y E; have L := at_lt E; rewrite (at_nth x) ?size_rcons 1?ltnW // nth_rcons L (at_Nth _ E). Qed.
Lemma sub_size l l' : sub l l' -> (size l <= size l')%N.
Proof.
case: l => [//|a l] H; rewrite leqNgt; apply/negP => L.
have E := H (size l') _ (at_nth a L); by have := at_lt E; rewrite ltnn.
Qed.

Lemma at_set d l j (x : A) k : (j < size l)%N ->
  at_ (set_nth d l j x) k = if k == j then Some x else at_ l k.
Proof.
move=> H; case: (ltnP k (size l)) => Hk.
  rewrite !(at_nth d) ?size_set_nth ?leq_max ?Hk ?orbT // nth_set_nth /=; by case: eqP.
rewrite /at_ nth_default ?size_map ?size_set_nth; last by lia.
by rewrite nth_default ?size_map //; case: eqP => // E; lia.
Qed.
End A.

Lemma optsP A (l : seq (option A)) r : opts l = Some r <-> l = map Some r.
Proof.
elim: l r => [|x l IH] r /=; first by split=> [[<-]|] //; case: r.
split.
  case: x => [a|] //; case E: (opts l) => [r'|] // [<-] /=; by rewrite ((IH r').1 E).
case: r => [//|a r] /= [-> E]; by rewrite ((IH r).2 E).
Qed.

Lemma opts_rev A (l : seq (option A)) r : opts l = Some r -> opts (rev l) = Some (rev r).
Proof. by move/optsP => ->; apply/optsP; rewrite map_rev. Qed.
Lemma opts_cat A (l1 l2 : seq (option A)) r1 r2 : opts l1 = Some r1 -> opts l2 = Some r2 ->
  opts (l1 ++ l2) = Some (r1 ++ r2).
Proof. by move=> /optsP -> /optsP ->; apply/optsP; rewrite map_cat. Qed.
Lemma opts_size A (l : seq (option A)) r : opts l = Some r -> size r = size l.
Proof. by move/optsP => ->; rewrite size_map. Qed.
Lemma opts_imp A B (f g : B -> option A) l r :
  (forall b a, f b = Some a -> g b = Some a) -> opts (map f l) = Some r -> opts (map g l) = Some r.
Proof.
move=> H; elim: l r => [|x l IH] r //=.
case E: (f x) => [a|] //; case E': (opts _) => [r'|] // [<-].
by rewrite (H _ _ E) (IH _ E').
Qed.

Section Thy.
Variable R : comRingType.
Notation arr := (nd R).
Notation tensor := (tensor R).
Notation heap := (heap R).
Implicit Types (h : heap) (v : view) (o : nat).

Definition ext h h' := [/\ sub (bufs h) (bufs h'), sub (alists h) (alists h'),
  sub (tlists h) (tlists h') & sub (objs h) (objs h')].
Lemma ext_refl h : ext h h. Proof. by split. Qed.
Lemma ext_trans h2 h1 h3 : ext h1 h2 -> ext h2 h3 -> ext h1 h3.
Proof. by move=> [a1 a2 a3 a4] [b1 b2 b3 b4]; split; [exact: sub_trans a1 b1|exact: sub_trans a2 b2|exact: sub_trans a3 b3|exact: sub_trans a4 b4]. Qed.
Lemma ext_arr h a : ext h (new_arr h a).1. Proof. by split=> //; apply: sub_rcons. Qed.
Lemma ext_alist h l : ext h (new_alist h l).1. Proof. by split=> //; apply: sub_rcons. Qed.
Lemma ext_tlist h l : ext h (new_tlist h l).1. Proof. by split=> //; apply: sub_rcons. Qed.
Lemma ext_obj h x : ext h (new_obj h x).1. Proof. by split=> //; apply: sub_rcons. Qed.
Lemma ext_arrs h l : ext h (new_arrs h l).1.
Proof.
elim: l h => [|a l IH] h; first exact: ext_refl.
rewrite /=; case E: (new_arrs _ _) => [h2 vs] /=.
by apply: ext_trans (ext_arr h a) _; rewrite -[h2]/((h2, vs).1) -E; apply: IH.
Qed.

Lemma rd_ext h h' v a : ext h h' -> rd h v = Some a -> rd h' v = Some a.
Proof. by case=> H _ _ _; rewrite /rd; case E: (at_ _ _) => [b|] //; rewrite (H _ _ E). Qed.
Lemma rds_ext h h' vs cs : ext h h' -> rds h vs = Some cs -> rds h' vs = Some cs.
Proof. by move=> H; apply: opts_imp => v a; apply: rd_ext. Qed.

Lemma rd_wf h v a : rd h v = Some a -> nwf a /\ nshape a = vshape v.
Proof.
rewrite /rd; case: (at_ _ _) => [b|] //; case: ifP => // /andP [_ /eqP E] [<-].
by rewrite /nwf /= size_map E.
Qed.
Lemma rd_data_size h v a : rd h v = Some a -> size (ndata a) = size (voff v).
Proof. by rewrite /rd; case: (at_ _ _) => [b|] //; case: ifP => // _ [<-]; rewrite size_map. Qed.

Lemma rd_new h (a : arr) : nwf a -> rd (new_arr h a).1 (new_arr h a).2 = Some a.
Proof.
move=> /eqP W; rewrite /rd /= at_rcons size_iota W eqxx andbT.
have -> : all (fun k => k < prods (nshape a))%N (iota 0 (prods (nshape a))).
  by apply/allP => k; rewrite mem_iota add0n.
congr Some; case: a W => s d /= W; congr Nd; rewrite -W; apply: (@eq_from_nth _ 0).
  by rewrite size_map size_iota.
by move=> k; rewrite size_map size_iota => Hk; rewrite (nth_map 0%N) ?size_iota // nth_iota.
Qed.

Lemma rds_new h (l : seq arr) : all (@nwf R) l -> rds (new_arrs h l).1 (new_arrs h l).2 = Some l.
Proof.
elim: l h => [|a l IH] h //= /andP [Wa Wl].
case E: (new_arrs _ _) => [h2 vs]; rewrite /= /rds /=.
have := IH (new_arr h a).1 Wl; rewrite E /= => E2; rewrite -/(rds h2 vs) E2.
have X : ext (new_arr h a).1 h2 by have := ext_arrs (new_arr h a).1 l; rewrite E.
by rewrite (rd_ext X (rd_new h Wa)).
Qed.

Lemma rds_shape h vs cs : rds h vs = Some cs -> map vshape vs = map (@nshape R) cs.
Proof.
elim: vs cs => [|v vs IH] cs /=; first by case=> <-.
rewrite /rds /=; case E: (rd h v) => [a|] //; case E': (opts _) => [r|] // [<-] /=.
by rewrite (rd_wf E).2 (IH r).
Qed.
Lemma rds_dims h vs cs k : rds h vs = Some cs -> [seq vdim v k | v <- vs] = [seq dim C k | C <- cs].
Proof.
move/rds_shape => E; have := congr1 (map (nth 0%N ^~ k)) E; by rewrite -!map_comp.
Qed.
Lemma rds_wf h vs cs : rds h vs = Some cs -> all (@nwf R) cs.
Proof.
elim: vs cs => [|v vs IH] cs /=; first by case=> <-.
rewrite /rds /=; case E: (rd h v) => [a|] //; case E': (opts _) => [r|] // [<-] /=.
by rewrite (rd_wf E).1 (IH r).
Qed.
Lemma rds_behead h vs cs : rds h vs = Some cs -> rds h (behead vs) = Some (behead cs).
Proof.
case: vs cs => [|v vs] cs /=; first by case=> <-.
rewrite /rds /=; case E: (rd h v) => [a|] //; by case E': (opts _) => [r|] // [<-].
Qed.
Lemma rds_rev h vs cs : rds h vs = Some cs -> rds h (rev vs) = Some (rev cs).
Proof. by move/opts_rev; rewrite /rds map_rev. Qed.

(* values are stable under extension *)
Lemma val_ext n h h' o X : ext h h' -> val n h o = Some X -> val n h' o = Some X.
Proof.
move=> H; elim: n o X => [|n IH] o X //=.
case: (H) => Hb Ha Ht Ho; case Eo: (at_ (objs h) o) => [x|] //; rewrite (Ho _ _ Eo).
case: x Eo => [v|s i v|s r l|s r l|s r l c|s l] Eo.
- by case E: (rd h v) => [a|] //; rewrite (rd_ext H E).
- by case E: (rd h v) => [a|] //; rewrite (rd_ext H E).
- case E: (at_ _ l) => [vs|] //; rewrite (Ha _ _ E).
  by case E': (rds h vs) => [cs|] //; rewrite (rds_ext H E').
- case E: (at_ _ l) => [vs|] //; rewrite (Ha _ _ E).
  by case E': (rds h vs) => [cs|] //; rewrite (rds_ext H E').
- case E: (at_ _ l) => [vs|] //; rewrite (Ha _ _ E).
  case E': (rds h vs) => [cs|] //; rewrite (rds_ext H E').
  by case E3: (rd h c) => [a|] //; rewrite (rd_ext H E3).
- case E: (at_ _ l) => [os|] //; rewrite (Ht _ _ E).
  case E': (opts _) => [Xs|] //; by rewrite (opts_imp IH E').
Qed.

Lemma val_mono n m h o X : (n <= m)%N -> val n h o = Some X -> val m h o = Some X.
Proof.
elim: n m o X => [|n IH] [|m] o X //= Hm.
case Eo: (at_ (objs h) o) => [[v|s i v|s r l|s r l|s r l c|s l]|] //.
case E: (at_ _ l) => [os|] //; case E': (opts _) => [Xs|] //.
by rewrite (opts_imp (fun b a => IH m b a Hm) E').
Qed.

(* ------------------------------------------------------------------ *)
(* refinement of a value-level result                                   *)
Definition refs n h (r : res (heap * nat)) (q : res tensor) : Prop :=
  match q with
  | Ok Y => exists h' o', [/\ r = Ok (h', o'), ext h h', caches h' = caches h & val n h' o' = Some Y]
  | Err e => r = Err e
  end.

Arguments refs : simpl never.

Lemma val_oshape n h o X x : val n h o = Some X -> at_ (objs h) o = Some x -> oshape x = tshape X.
Proof.
case: n => [|n] //=; case E: (at_ _ o) => [[v|s i v|s r l|s r l|s r l c|s l]|] // H [<-] /=; move: H.
- by case E': (rd h v) => [a|] // [<-] /=; rewrite (rd_wf E').2.
- by case E': (rd h v) => [a|] //; case: ifP => // _ [<-].
- by case: (at_ _ l) => [vs|] //; case: (rds _ _) => [cs|] //; case: ifP => // /andP [/eqP -> _] [<-].
- by case: (at_ _ l) => [vs|] //; case: (rds _ _) => [[|C0 cs]|] //; case: ifP => // /andP [/eqP -> _] [<-].
- by case: (at_ _ l) => [vs|] //; case: (rds _ _) => [fs|] //; case: (rd _ _) => [c'|] //; case: ifP => // /andP [/eqP -> _] [<-].
- by case: (at_ _ l) => [os|] //; case: (opts _) => [Xs|] // [<-].
Qed.

Lemma new_objE n h x X : val n (new_obj h x).1 (size (objs h)) = Some X ->
  refs n h (Ok (new_obj h x)) (Ok X).
Proof. by move=> E; exists (new_obj h x).1, (size (objs h)); split=> //; apply: ext_obj. Qed.

Lemma refs_ext n h h' r q : ext h h' -> caches h' = caches h -> refs n h' r q -> refs n h r q.
Proof.
move=> X C; case: q => [Y|e] //; rewrite /refs => -[h2 [o2 [-> E C2 V]]]; exists h2, o2; split=> //; last by rewrite C2.
exact: ext_trans X E.
Qed.

Lemma sum_ofE n h os Xs : opts (map (val n h) os) = Some Xs ->
  refs n.+1 h (sum_of h os) (mk_sum Xs).
Proof.
move=> V; rewrite /sum_of /new_sum [new_tlist h os]surjective_pairing /= at_rcons /=.
case: os V => [|o os] /=; first by case=> <-.
case E: (val n h o) => [X|] //; case E': (opts _) => [r|] // [<-] /=; rewrite /pyget /= /refs.
case Eo: (at_ (objs h) o) => [x|] /=; last by case: n E E' => [|n] //=; rewrite Eo.
set h2 := new_obj _ _; exists h2.1, h2.2.
have X2 : ext h h2.1 by apply: ext_trans (ext_tlist h (o :: os)) (ext_obj _ _).
split=> //.
rewrite /= !at_rcons -/h2.1 /= (val_ext X2 E) (opts_imp (fun b a => @val_ext n h h2.1 b a X2) E') /=.
by rewrite (val_oshape E Eo).
Qed.

Lemma new_ttE n h l vs cs : at_ (alists h) l = Some vs -> rds h vs = Some cs ->
  refs n.+1 h (new_tt h l) (Ok (TT cs)).
Proof.
move=> El Er; rewrite /new_tt El /=; apply: new_objE; rewrite /= at_rcons /= El.
rewrite (rds_ext (ext_obj _ _) Er) (rds_dims _ Er) eqxx.
by rewrite (rds_dims _ (rds_behead Er)) eqxx.
Qed.
Lemma new_cpE n h l vs C0 cs : at_ (alists h) l = Some vs -> rds h vs = Some (C0 :: cs) ->
  refs n.+1 h (new_cp h l) (Ok (CP (C0 :: cs))).
Proof.
move=> El Er; rewrite /new_cp El /=.
have Ed k := rds_dims k Er.
case: vs El Er Ed => [|v0 vs] El Er Ed //; rewrite /pyget /=.
apply: new_objE; rewrite /= at_rcons /= El.
rewrite (rds_ext (ext_obj _ _) Er).
by move: (Ed 0%N) (Ed 1%N) => /= -> [-> _]; rewrite !eqxx.
Qed.
Lemma new_tuckerE n h l vs fs v c : at_ (alists h) l = Some vs -> rds h vs = Some fs ->
  rd h v = Some c -> refs n.+1 h (new_tucker h l v) (Ok (Tucker fs c)).
Proof.
move=> El Er Ev; rewrite /new_tucker El /=; apply: new_objE; rewrite /= at_rcons /= El.
rewrite (rds_ext (ext_obj _ _) Er) (rd_ext (ext_obj _ _) Ev) (rds_dims _ Er) eqxx.
by rewrite (rds_dims _ Er) eqxx.
Qed.

End Thy.
