(* C56: tensors as objects -- what is shared, what is copied, what stays unchanged. *)
From mathcomp Require Import all_ssreflect all_algebra.
From mathcomp.zify Require Import zify.
From Verif Require Import Py Nd Utils Tensor NdThy Heap HeapSpec HeapThy1 HeapThy2 HeapThy3 HeapThy4 HeapThy5 HeapThy6.
Set Implicit Arguments. Unset Strict Implicit. Unset Printing Implicit Defensive.
Import GRing.Theory.
Local Open Scope ring_scope.

Section Props.
Variable R : comRingType.
Notation arr := (nd R).
Notation tensor := (tensor R).
Notation heap := (heap R).
Implicit Types (h : heap) (v : view) (o : nat) (X Y : tensor).

(* ------------------------------------------------------------------ *)
(* 1. No call except +=, element assignment and X[k] = ... changes a tensor that
   already exists, whatever the program does. *)
Theorem C56_nothing_else_changes n (prog : seq (call R)) h o X :
  all (@not_in_place R) prog -> denotes h o X -> denotes (run n h prog) o X.
Proof. by move=> P [m V]; exists m; apply: val_ext V; apply: run_ext. Qed.

(* 2. Each method returns an object for the result of the value-level function of
   Tensor.v (about which the other properties are stated), and raises when it does.
   [n] is the recursion limit; it must exceed the nesting of the operands. *)
Lemma refs_yields n h r (q : res tensor) : refs n h r q -> yields (ret (@AObj R) r) q.
Proof. by rewrite /refs; case: q => [Y|e] /=; [case=> h' [o' [-> _ _ V]]; exists h', o'; split=> //; exists n|move=> ->]. Qed.

Theorem C56_T n h o X : val n h o = Some X -> yields (exec n h (CT R o)) (tT X).
Proof. by move=> V; apply: refs_yields (op_TE V). Qed.
Theorem C56_mul n h o X c : val n h o = Some X -> yields (exec n h (CMul o c)) (tmul X c).
Proof. by move=> V; apply: refs_yields (op_mulE c V). Qed.
Theorem C56_neg n h o X : val n h o = Some X -> yields (exec n h (CNeg R o)) (tneg X).
Proof. by move=> V; apply: refs_yields (op_mulE _ V). Qed.
Theorem C56_mul_list n h o s Xs cs : val n.+1 h o = Some (TSum s Xs) ->
  yields (exec n h (CMulList o cs)) (sum_mul_list Xs cs).
Proof. by move=> V; apply: refs_yields (op_mul_listE cs V). Qed.
Theorem C56_add n h o1 o2 X Y : val n h o1 = Some X -> val n h o2 = Some Y ->
  yields (exec n h (CAdd R o1 o2)) (tadd X Y).
Proof. by move=> V1 V2; apply: refs_yields (op_addE V1 V2). Qed.
Theorem C56_sub n h o1 o2 X Y : val n h o1 = Some X -> val n h o2 = Some Y ->
  yields (exec n h (CSub R o1 o2)) (tsub X Y).
Proof. by move=> V1 V2; apply: refs_yields (op_subE V1 V2). Qed.
Theorem C56_dense n h o X : val n h o = Some X ->
  yields (exec n h (CDense R o)) (do a <- to_numpy X; Ok (Dense a)).
Proof. by move=> V; apply: refs_yields (op_denseE V). Qed.
Theorem C56_to_sparse n h o a : val n h o = Some (Dense a) ->
  yields (exec n h (CToSparse R o)) (Ok (to_sparse a)).
Proof. by move=> V; apply: refs_yields (op_to_sparseE V). Qed.
Theorem C56_split n h o s inds d k : val n h o = Some (Sparse s inds d) ->
  yields (exec n h (CSplit R o k)) (sparse_split s inds d k).
Proof. by move=> V; apply: refs_yields (op_splitE k V). Qed.
Theorem C56_tt_add n h o1 o2 cs1 cs2 : val n h o1 = Some (TT cs1) -> val n h o2 = Some (TT cs2) ->
  yields (exec n h (CTTAdd R o1 o2)) (do cs <- tt_add cs1 cs2; Ok (TT cs)).
Proof. by move=> V1 V2; apply: refs_yields (op_tt_addE V1 V2). Qed.
Theorem C56_to_numpy n h o X : val n h o = Some X ->
  match to_numpy X with
  | Ok a => exists h' v, exec n h (CToNumpy R o) = Ok (h', AView R v) /\ rd h' v = Some a
  | Err e => exec n h (CToNumpy R o) = Err e
  end.
Proof.
by move=> V; have := op_to_numpyE V; rewrite /refv /=; case: (to_numpy X) => [a|e];
  [case=> h' [v [-> _ _ E]]; exists h', v|move=> ->].
Qed.

(* constructors *)
Theorem C56_constructors n h :
  [/\ (forall v a, rd h v = Some a -> yields (exec n h (CNewDense R v)) (Ok (Dense a))),
      (forall s i v d, rd h v = Some (Nd [:: size d] d) ->
           yields (exec n h (CNewSparse R s i v)) (Ok (Sparse s i d))),
      (forall l vs cs, at_ (alists h) l = Some vs -> rds h vs = Some cs ->
           yields (exec n h (CNewTT R l)) (Ok (TT cs)) /\
           (cs <> [::] -> yields (exec n h (CNewCP R l)) (Ok (CP cs)))),
      (forall l vs fs v c, at_ (alists h) l = Some vs -> rds h vs = Some fs -> rd h v = Some c ->
           yields (exec n h (CNewTucker R l v)) (Ok (Tucker fs c)))
    & (forall l os Xs, at_ (tlists h) l = Some os -> opts (map (val n h) os) = Some Xs ->
           yields (exec n h (CNewSum R l)) (mk_sum Xs))].
Proof.
split.
- by move=> v a E; apply: refs_yields (new_denseE 0 E).
- by move=> s i v d E; apply: refs_yields (new_sparseE 0 s i E).
- move=> l vs cs El Er; split; first by apply: refs_yields (new_ttE 0 El Er).
  by case: cs Er => [|C0 cs] Er // _; apply: refs_yields (new_cpE 0 El Er).
- by move=> l vs fs v c El Er Ev; apply: refs_yields (new_tuckerE 0 El Er Ev).
- move=> l os Xs El V; rewrite /= /new_sum El /=; case: os El V => [|o os] El /=; first by case=> <-.
  case E: (val n h o) => [X|] //; case E': (opts _) => [r|] // [<-] /=.
  have [x Eo] := val_at E; rewrite Eo /=; eexists _, _; split; first by [].
  exists n.+1; have X2 := ext_obj h (OSum (oshape x) l).
  rewrite /= at_rcons El /= (val_ext X2 E) (opts_imp (fun b a => @val_ext _ n h _ b a X2) E') /=.
  by rewrite (val_oshape E Eo).
Qed.

(* 3. The dictionary memoized by SparseTensor.gather never gives a wrong answer in
   a program without in-place modification. *)
Theorem C56_gather n m (prog : seq (call R)) h o X idx :
  all (@not_in_place R) prog -> caches h = [::] -> val m (run n h prog) o = Some X ->
  match gather X idx with
  | Ok xs => exists h', exec n (run n h prog) (CGather R o idx) = Ok (h', AVals xs)
  | Err e => exec n (run n h prog) (CGather R o idx) = Err e
  end.
Proof.
move=> P C V; have F : caches_fresh (run n h prog).
  by apply: run_fresh => //; move=> o' d; rewrite C.
have := op_gatherE idx F V => /=; case: (gather X idx) => [xs|e]; last by move=> ->.
by case=> h' ->; exists h'.
Qed.

Lemma opts_some (A : Type) (B : eqType) (f : B -> option A) l r x : opts (map f l) = Some r -> x \in l ->
  exists a, f x = Some a.
Proof.
elim: l r => [|y l IH] r //=; case E: (f y) => [a|] //; case E': (opts _) => [r'|] // _.
by rewrite inE => /orP [/eqP ->|]; [exists a|exact: IH E'].
Qed.

(* ------------------------------------------------------------------ *)
(* 4. S += Y adds the summands of Y to S, and is seen by those objects only that
   go through the list S.tensors. *)
Lemma oparts_summands h o os : oparts h o = Ok os -> summands h o = os.
Proof.
rewrite /oparts /summands; case: (at_ _ o) => [[v|s i v|s r l|s r l|s r l c|s l]|] //=; try by case.
by case: (at_ _ l) => [x|] //= [].
Qed.

Theorem C56_iadd n h (S Y : nat) s l Xs Yv : at_ (objs h) S = Some (OSum s l) ->
  val n.+1 h S = Some (TSum s Xs) -> val n h Y = Some Yv ->
  (forall o, o \in summands h S ++ summands h Y -> l \notin tensor_lists n h o) ->
  exists h', [/\ exec n h (CIadd R S Y) = Ok (h', AObj R S),
     (exists2 Z, tiadd (TSum s Xs) Yv = Ok Z & denotes h' S Z) &
     forall m o X, val m h o = Some X -> l \notin tensor_lists m h o -> val m h' o = Some X].
Proof.
move=> Eo /val_inv [l0 [os [Eo' El V]]] VY N; move: Eo' El V; rewrite Eo => -[<-] {l0} El V.
have [ys [EY Vy]] := oparts_val VY.
have E : op_iadd h S Y = Ok (upd_tlist h l (os ++ ys), S) := op_iadd_inv Eo El EY.
exists (upd_tlist h l (os ++ ys)); split; first by rewrite /= E.
  exists (TSum s (Xs ++ parts Yv)); first by case: (Yv).
  exists n.+1; apply: (iadd_self Eo El V Vy) => o Ho; apply: N.
  by rewrite (oparts_summands EY) /summands Eo El.
by move=> m o X VX NX; rewrite val_upd //; exact: at_lt El.
Qed.

(* Z = S + Y is a snapshot: it is not affected by a later S += W. *)
Theorem C56_add_snapshot n h (S Y W : nat) s l Xs Yv h1 z h2 w : at_ (objs h) S = Some (OSum s l) ->
  val n h S = Some (TSum s Xs) -> val n h Y = Some Yv ->
  (forall o, o \in summands h S ++ summands h Y -> l \notin tensor_lists n h o) ->
  exec n h (CAdd R S Y) = Ok (h1, AObj R z) -> exec n h1 (CIadd R S W) = Ok (h2, w) ->
  exists2 Z, tadd (TSum s Xs) Yv = Ok Z & denotes h1 z Z /\ denotes h2 z Z.
Proof.
move=> Eo VS VY N /ret_inv [z' [EA [Ez]]]; rewrite -{}Ez in EA.
have [xs [ES Vx]] := oparts_val VS; have [ys [EY Vy]] := oparts_val VY.
have EA' := EA; rewrite (op_addE' ES EY) in EA'.
have [o0 [r [x0 [Eos Ex0 Eo1 El1 X1]]]] := sum_of_inv EA'.
have Vxy := opts_cat Vx Vy; rewrite -map_cat in Vxy.
have [Z [EZ VZ]] := sum_live EA' (sext_refl h1) (opts_imp (fun b a => @val_ext _ n h h1 b a X1) Vxy).
move=> E2; exists Z; first by rewrite taddE.
split; first by exists n.+1.
have [l0 [os [Eo' El V]]] : exists l0 os, [/\ at_ (objs h) S = Some (OSum s l0), at_ (tlists h) l0 = Some os & True].
  by case: (n) VS => [|n'] // /val_inv [l0 [os [? ? _]]]; exists l0, os.
move: Eo' El; rewrite Eo => -[<-] {l0} El {V}.
have Eo2 : at_ (objs h1) S = Some (OSum s l) by case: X1 => _ _ _; apply.
have El2 : at_ (tlists h1) l = Some os by case: X1 => _ _ H _; apply: H.
move: E2; rewrite /= /op_iadd Eo2 /=; case EW: (at_ _ W) => [xw|] //=; rewrite El2 /=.
case: (match xw with OSum _ _ => _ | _ => _ end) => [ws|] //= [<- _].
exists n.+1; rewrite (@val_upd _ n.+1 h1 l (os ++ ws) z) ?(at_lt El2) //.
rewrite /= Eo1 El1 inE negb_or; apply/andP; split; first by have := at_lt El; case: eqP => // ->; rewrite ltnn.
apply/negP => /flattenP [q /mapP [o Ho ->]].
have Ho' : o \in summands h S ++ summands h Y by rewrite (oparts_summands ES) (oparts_summands EY).
have [Xo Vo] := opts_some Vxy Ho.
by rewrite (tlists_ext X1 Vo) (negbTE (N _ Ho')).
Qed.

(* ------------------------------------------------------------------ *)
(* 5. Assigning to an element of an array changes that array as expected and only
   the tensors that hold this memory cell. *)
Theorem C56_write n h v k x h' ans a : exec n h (CWrite v k x) = Ok (h', ans) ->
  uniq (voff v) -> rd h v = Some a ->
  rd h' v = Some (Nd (nshape a) (set_nth 0 (ndata a) k x)) /\
  forall m o X, val m h o = Some X -> (vbuf v, nth 0%N (voff v) k) \notin cells m h o ->
    val m h' o = Some X.
Proof.
rewrite /=; case W: (op_write h v k x) => [h1|] //= [<- _] U Ea; split; first exact: write_self W U Ea.
by move=> m o X V N; exact: val_write W N V.
Qed.

(* 6. X * c for dense, sparse and train formats (and sums of them) shares no memory
   with X: later assignments to arrays that existed before do not show in the result, and
   assignments to arrays of the result do not show in tensors that existed before. *)
Theorem C56_mul_independent n h o X c h1 p : val n h o = Some X -> copied X ->
  exec n h (CMul o c) = Ok (h1, AObj R p) ->
  forall v k x h2 ans, exec n h1 (CWrite v k x) = Ok (h2, ans) ->
  ((vbuf v < size (bufs h))%N -> forall Y, val n h1 p = Some Y -> val n h2 p = Some Y) /\
  ((vbuf v, nth 0%N (voff v) k) \in cells n h1 p ->
      forall m o' Z, val m h o' = Some Z -> val m h2 o' = Some Z).
Proof.
move=> V C /ret_inv [p' [E [Ep]]]; rewrite -{}Ep in E.
move=> v k x h2 ans /=; case W: (op_write h1 v k x) => [h3|] //= [<- _].
have F := mul_fresh V C E (leqnn _); have K := kp_mul E.
split=> [Hv Y VY|Hc m o' Z VZ].
  apply: val_write W _ VY; apply/negP => /(allP F) /=; by rewrite leqNgt Hv.
apply: val_write W _ (val_ext K.1 VZ); rewrite (cells_ext K.1 VZ); apply/negP => /(old_cells VZ) /=.
by rewrite ltnNge (allP F _ Hc).
Qed.

(* the same for TensorTrain.add *)
Theorem C56_tt_add_independent n h o1 o2 h1 p :
  exec n h (CTTAdd R o1 o2) = Ok (h1, AObj R p) ->
  forall v k x h2 ans, exec n h1 (CWrite v k x) = Ok (h2, ans) ->
  ((vbuf v < size (bufs h))%N -> forall Y, val n h1 p = Some Y -> val n h2 p = Some Y) /\
  ((vbuf v, nth 0%N (voff v) k) \in cells n h1 p ->
      forall m o' Z, val m h o' = Some Z -> val m h2 o' = Some Z).
Proof.
move=> /ret_inv [p' [E [Ep]]]; rewrite -{}Ep in E.
move=> v k x h2 ans /=; case W: (op_write h1 v k x) => [h3|] //= [<- _].
have F := tt_add_fresh n E; have K := kp_tt_add E.
split=> [Hv Y VY|Hc m o' Z VZ].
  apply: val_write W _ VY; apply/negP => /(allP F) /=; by rewrite leqNgt Hv.
apply: val_write W _ (val_ext K.1 VZ); rewrite (cells_ext K.1 VZ); apply/negP => /(old_cells VZ) /=.
by rewrite ltnNge (allP F _ Hc).
Qed.

(* The array returned by to_numpy may be modified freely, unless the tensor is a
   DenseTensor, a train with one core or a Tucker tensor without factors. *)
Theorem C56_to_numpy_independent n h o X h1 v : val n h o = Some X -> np_fresh X ->
  exec n h (CToNumpy R o) = Ok (h1, AView R v) ->
  forall k x h2 ans, exec n h1 (CWrite v k x) = Ok (h2, ans) ->
  forall m o' Z, val m h o' = Some Z -> val m h2 o' = Some Z.
Proof.
move=> V P /ret_inv [v' [E [Ev]]]; rewrite -{}Ev in E.
move=> k x h2 ans /=; case W: (op_write h1 v k x) => [h3|] //= [<- _] m o' Z VZ.
have K := kp_to_numpy E; have F := to_numpy_fresh V P E.
apply: val_write W _ (val_ext K.1 VZ); rewrite (cells_ext K.1 VZ); apply/negP => /(old_cells VZ) /=.
by rewrite ltnNge F.
Qed.

(* 7. X.T is a view in every format: after any program of calls that are not += or
   X[k] = ..., in particular after assignments to array elements of either of them, it
   is still the transpose of X. *)
Lemma run_sext n h prog : all (fun c => not_in_place c || is_write c) prog -> sext h (run n h prog).
Proof.
elim: prog h => [|c cs IH] h /=; first by move=> _; apply: sext_refl.
case/andP=> Pc Pcs; apply: sext_trans (IH _ Pcs); case E: (exec n h c) => [[h' a]|e] /=; last exact: sext_refl.
case/orP: Pc => [Pc|]; first by apply: ext_sext; exact: exec_ext Pc E.
case: c E => // v k x E _; move: E => /=; case W: (op_write h v k x) => [h1|] //= [<- _].
by have [b [_ _ ->]] := op_write_inv W; split; apply: sub_refl.
Qed.

Theorem C56_T_is_a_view n h o h1 t prog X : exec n h (CT R o) = Ok (h1, AObj R t) ->
  all (fun c => not_in_place c || is_write c) prog ->
  val n (run n h1 prog) o = Some X ->
  exists Y, tT X = Ok Y /\ val n (run n h1 prog) t = Some Y.
Proof.
move=> /ret_inv [t' [E [Et]]]; rewrite -{}Et in E.
by move=> P V; apply: (T_live E _ V); apply: run_sext.
Qed.

Theorem C56_split_is_a_view n h o k h1 t prog s inds d : exec n h (CSplit R o k) = Ok (h1, AObj R t) ->
  all (fun c => not_in_place c || is_write c) prog ->
  val n (run n h1 prog) o = Some (Sparse s inds d) ->
  exists Y, sparse_split s inds d k = Ok Y /\ denotes (run n h1 prog) t Y.
Proof.
move=> /ret_inv [t' [E [Et]]]; rewrite -{}Et in E.
move=> P V; have [|Y [EY VY]] := split_live E _ V; first exact: run_sext.
by exists Y; split=> //; exists n.+1.
Qed.

(* 8. X[k] = C replaces the core, and is seen only by objects using the same list. *)
Theorem C56_setitem n h o k v cs C : val n h o = Some (TT cs) -> rd h v = Some C ->
  (k < size cs)%N -> nshape C = nshape (nth C cs k) ->
  exists h' l, [/\ exec n h (CSetItem R o k v) = Ok (h', ANone R),
     denotes h' o (TT (set_nth C cs k C)), array_lists n h o = [:: l] &
     forall m o' X, val m h o' = Some X -> l \notin array_lists m h o' -> val m h' o' = Some X].
Proof.
case: n => [|n] // /val_inv [l [vs [Eo El Er]]] EC Hk Es.
have Ev : size vs = size cs by rewrite (opts_size Er) size_map.
pose vs' := take k vs ++ v :: drop k.+1 vs; pose cs' := take k cs ++ C :: drop k.+1 cs.
have Er' : rds h vs' = Some cs'.
  move/optsP: Er => Em; apply/optsP; rewrite /vs' map_cat map_take /= map_drop Em EC.
  by rewrite -map_take -map_drop /cs' map_cat.
have Ec' : set_nth C cs k C = cs'.
  apply: (@eq_from_nth _ C); first by rewrite size_set_nth /cs' size_cat /= size_take size_drop Hk; lia.
  move=> j _; rewrite nth_set_nth /= /cs' nth_cat size_take Hk; case: (ltngtP j k) => Hj.
  - by rewrite nth_take.
  - by case E: (j - k)%N => [|m]; [lia|rewrite /= nth_drop; congr nth; lia].
  - by rewrite Hj subnn.
have Sh : map (@nshape R) cs' = map (@nshape R) cs.
  rewrite /cs' map_cat /= Es -[in RHS](cat_take_drop k cs) map_cat; congr cat.
  by rewrite (drop_nth C Hk).
have D j : [seq dim D j | D <- cs'] = [seq dim D j | D <- cs].
  have := congr1 (map (nth 0%N ^~ j)) Sh; by rewrite -!map_comp.
have Db : tt_rank cs' = tt_rank cs by rewrite /tt_rank -!behead_map D.
exists (upd_alist h l vs'), l; split.
- by rewrite /= /op_setitem Eo /= El /= /pyset Ev Hk.
- exists 1%N; rewrite /= Eo at_set ?(at_lt El) // eqxx rds_upda Er' D Db !eqxx Ec' //.
- by rewrite /= Eo.
- by move=> m o' X V N; rewrite val_upda //; exact: at_lt El.
Qed.

End Props.

(* ------------------------------------------------------------------ *)
(* Concrete heaps over the integers: non-vacuity and aliasing.           *)
Section Examples.
Notation Z := int_comRing.

Definition emp : heap Z := Heap [::] [::] [::] [::] [::].
Definition V (b : nat) (s : seq nat) : view := View b s (iota 0 (prods s)).
Definition A22 : nd Z := Nd [:: 2; 2]%N [:: 1; 2; 3; 4].
Definition A122 : nd Z := Nd [:: 1; 2; 2]%N [:: 1; 2; 3; 4].
Definition A221 : nd Z := Nd [:: 2; 2; 1]%N [:: 5; 6; 7; 8].
Definition A2 : nd Z := Nd [:: 2]%N [:: 7; 9].
Definition A121 : nd Z := Nd [:: 1; 2; 1]%N [:: 7; 9].

(* the heap after one call *)
Definition aft n (h : heap Z) (c : call Z) : heap Z := if exec n h c is Ok p then p.1 else h.

(* X0 dense, X1 train, X2 sparse, X3 CP, X4 Tucker, X5 = X0 + X1, X6 = TensorSum([X5, X2]) *)
Definition ex_prog : seq (call Z) :=
  [:: CArray A22; CNewDense Z (V 0 [:: 2; 2]%N);
      CArray A122; CArray A221; CArrays Z [:: V 1 [:: 1; 2; 2]%N; V 2 [:: 2; 2; 1]%N]; CNewTT Z 0;
      CArray A2; CNewSparse Z [:: 2; 2]%N [:: [:: 0; 1]; [:: 1; 1]]%N (V 3 [:: 2]%N);
      CArrays Z [:: V 0 [:: 2; 2]%N; V 0 [:: 2; 2]%N]; CNewCP Z 1;
      CNewTucker Z 1 (V 0 [:: 2; 2]%N);
      CAdd Z 0 1; CTensors Z [:: 5; 2]%N; CNewSum Z 1].
Definition ex_h : heap Z := run 3 emp ex_prog.

(* the hypotheses of the theorems above are met *)
Example C56_ex_values :
  [/\ val 1 ex_h 0 = Some (Dense A22), val 1 ex_h 1 = Some (TT [:: A122; A221]),
      val 3 ex_h 6 = Some (TSum [:: 2; 2]%N [:: TSum [:: 2; 2]%N [:: Dense A22; TT [:: A122; A221]];
         Sparse [:: 2; 2]%N [:: [:: 0; 1]; [:: 1; 1]]%N [:: 7; 9]]),
      val 1 ex_h 3 = Some (CP [:: A22; A22]) & val 1 ex_h 4 = Some (Tucker [:: A22; A22] A22)].
Proof. by vm_compute. Qed.

Example C56_ex_conditions :
  [/\ all (@not_in_place Z) ex_prog, caches emp = [::],
      at_ (objs ex_h) 5 = Some (OSum [:: 2; 2]%N 0),
      (forall o, o \in summands ex_h 5 ++ summands ex_h 4 -> 0%N \notin tensor_lists 2 ex_h o)
    & copied (TSum [:: 2; 2]%N [:: Dense A22; TT [:: A122; A221]])].
Proof.
by split; [vm_compute..|move=> o; rewrite -[_ ++ _]/[:: 0; 1; 4]%N !inE => /or3P [] /eqP ->; vm_compute|vm_compute].
Qed.

(* an assignment seen through X.T: X0.data[0,1] = 10, then X0.T[1,0] = 10 *)
Example C56_ex_T_view :
  let h := run 3 ex_h [:: CT Z 0; CWrite (V 0 [:: 2; 2]%N) 1 10] in
  val 1 h 7 = Some (Dense (Nd [:: 2; 2]%N [:: 1; 3; 10; 4] : nd Z)).
Proof. by vm_compute. Qed.

(* += on X5 = X0 + X1 is seen by X6, which contains X5, but not by X7 = X5 + X2 *)
Example C56_ex_iadd :
  let h := run 3 ex_h [:: CAdd Z 5 2; CIadd Z 5 3] in
  [/\ val 3 h 7 = val 3 (run 3 ex_h [:: CAdd Z 5 2]) 7,
      val 2 h 5 = Some (TSum [:: 2; 2]%N [:: Dense A22; TT [:: A122; A221]; CP [:: A22; A22]])
    & val 3 h 6 = Some (TSum [:: 2; 2]%N [:: TSum [:: 2; 2]%N [:: Dense A22; TT [:: A122; A221]; CP [:: A22; A22]];
         Sparse [:: 2; 2]%N [:: [:: 0; 1]; [:: 1; 1]]%N [:: 7; 9]])].
Proof. by vm_compute. Qed.

(* ------------------------------------------------------------------ *)
(* What does not hold. *)

(* modifying the array returned by DenseTensor.to_numpy modifies the tensor,
   and so does modifying the one returned by a train with a single core *)
Theorem C56_to_numpy_aliases_refuted :
  (exists (h : heap Z) o a v k x h1 h2 ans, [/\ val 1 h o = Some (Dense a),
      exec 1 h (CToNumpy Z o) = Ok (h1, AView Z v), exec 1 h1 (CWrite v k x) = Ok (h2, ans) &
      val 1 h2 o <> Some (Dense a)]) /\
  (exists (h : heap Z) o C v k x h1 h2 ans, [/\ val 1 h o = Some (TT [:: C]),
      exec 1 h (CToNumpy Z o) = Ok (h1, AView Z v), exec 1 h1 (CWrite v k x) = Ok (h2, ans) &
      val 1 h2 o <> Some (TT [:: C])]).
Proof.
split.
  pose h := run 1 emp [:: CArray A22; CNewDense Z (V 0 [:: 2; 2]%N)]; pose h1 := aft 1 h (CToNumpy Z 0).
  exists h, 0%N, A22, (V 0 [:: 2; 2]%N), 1%N, (10 : Z), h1, (aft 1 h1 (CWrite (V 0 [:: 2; 2]%N) 1 (10 : Z))), (ANone Z).
  by split; [vm_compute..|vm_compute].
pose h := run 1 emp [:: CArray A121; CArrays Z [:: V 0 [:: 1; 2; 1]%N]; CNewTT Z 0]; pose h1 := aft 1 h (CToNumpy Z 0).
exists h, 0%N, A121, (V 0 [:: 2]%N), 1%N, (10 : Z), h1, (aft 1 h1 (CWrite (V 0 [:: 2]%N) 1 (10 : Z))), (ANone Z).
by split; [vm_compute..|vm_compute].
Qed.

(* X * c of a CP or Tucker tensor shares arrays with X: an assignment to X.cores[1][..],
   respectively X.factors[0][..], changes X * c *)
Theorem C56_mul_shares_refuted :
  (exists (h : heap Z) o X c h1 p Y v k x h2 ans, [/\ val 1 h o = Some (CP X),
      exec 1 h (CMul o c) = Ok (h1, AObj Z p), val 1 h1 p = Some Y,
      (vbuf v < size (bufs h))%N
    & exec 1 h1 (CWrite v k x) = Ok (h2, ans) /\ val 1 h2 p <> Some Y]) /\
  (exists (h : heap Z) o fs co c h1 p Y v k x h2 ans, [/\ val 1 h o = Some (Tucker fs co),
      exec 1 h (CMul o c) = Ok (h1, AObj Z p), val 1 h1 p = Some Y,
      (vbuf v < size (bufs h))%N
    & exec 1 h1 (CWrite v k x) = Ok (h2, ans) /\ val 1 h2 p <> Some Y]).
Proof.
pose v := V 0 [:: 2; 2]%N; pose B22 : nd Z := Nd [:: 2; 2]%N [:: 2; 4; 6; 8].
split.
  pose h1 := aft 1 ex_h (CMul 3 (2 : Z)).
  exists ex_h, 3%N, [:: A22; A22], (2 : Z), h1, 7%N, (CP [:: B22; A22]), v, 1%N, (10 : Z).
  exists (aft 1 h1 (CWrite v 1 (10 : Z))), (ANone Z).
  by split; [vm_compute..|vm_compute].
pose h1 := aft 1 ex_h (CMul 4 (2 : Z)).
exists ex_h, 4%N, [:: A22; A22], A22, (2 : Z), h1, 7%N, (Tucker [:: A22; A22] B22), v, 1%N, (10 : Z).
exists (aft 1 h1 (CWrite v 1 (10 : Z))), (ANone Z).
by split; [vm_compute..|vm_compute].
Qed.

(* SparseTensor.gather returns stale values after the entries have been modified,
   if it has been called before *)
Theorem C56_gather_stale_refuted :
  exists (h : heap Z) prog o X idx h' xs, [/\ caches h = [::], val 1 (run 1 h prog) o = Some X,
    exec 1 (run 1 h prog) (CGather Z o idx) = Ok (h', AVals xs) & gather X idx <> Ok xs].
Proof.
pose prog := [:: CGather Z 2 [:: [:: 0]; [:: 1]]%N; CWrite (V 3 [:: 2]%N) 0 (100 : Z)].
exists ex_h, prog, 2%N, (Sparse [:: 2; 2]%N [:: [:: 0; 1]; [:: 1; 1]]%N [:: 100; 9]), [:: [:: 0]; [:: 1]]%N.
exists (aft 1 (run 1 ex_h prog) (CGather Z 2 [:: [:: 0]; [:: 1]]%N)), [:: 7].
by split; [vm_compute..|vm_compute].
Qed.

(* two sums built from the same Python list are both changed by += on one of them *)
Theorem C56_shared_list_refuted :
  exists (h : heap Z) (l o1 o2 y : nat) X h1 h2 h3, [/\ exec 2 h (CNewSum Z l) = Ok (h1, AObj Z o1),
    exec 2 h1 (CNewSum Z l) = Ok (h2, AObj Z o2), val 2 h2 o2 = Some X,
    exec 2 h2 (CIadd Z o1 y) = Ok (h3, AObj Z o1) & o1 != o2 /\ val 2 h3 o2 <> Some X].
Proof.
pose h := run 2 ex_h [:: CTensors Z [:: 0; 1]%N]; pose h1 := aft 2 h (CNewSum Z 2); pose h2 := aft 2 h1 (CNewSum Z 2).
exists h, 2%N, 7%N, 8%N, 2%N, (TSum [:: 2; 2]%N [:: Dense A22; TT [:: A122; A221]]), h1, h2, (aft 2 h2 (CIadd Z 7 2)).
by split; [vm_compute..|vm_compute].
Qed.

(* S += TensorSum([S]) puts S into its own list: afterwards S denotes no tensor, and
   every method that walks through it exhausts the recursion limit *)
Theorem C56_self_nesting_refuted :
  exists (h h' : heap Z) S Y X, [/\ val 3 h S = Some X, val 3 h Y <> None,
    exec 3 h (CIadd Z S Y) = Ok (h', AObj Z S), (forall Z', ~ denotes h' S Z')
  & forall n, exec n h' (CT Z S) = Err RecursionError].
Proof.
pose h := run 3 emp [:: CArray A22; CNewDense Z (V 0 [:: 2; 2]%N);
   CTensors Z [:: 0]%N; CNewSum Z 0; CTensors Z [:: 1]%N; CNewSum Z 1].
pose h' := aft 3 h (CIadd Z 1 2).
have Eo : at_ (objs h') 1 = Some (OSum [:: 2; 2]%N 0) by vm_compute.
have El : at_ (tlists h') 0 = Some [:: 0; 1]%N by vm_compute.
have E0 : at_ (objs h') 0 = Some (ODense (V 0 [:: 2; 2]%N)) by vm_compute.
exists h, h', 1%N, 2%N, (TSum [:: 2; 2]%N [:: Dense A22]).
split; [by vm_compute|by vm_compute|by vm_compute| |].
  move=> Z' [n]; suff -> : val n h' 1 = None by [].
  elim: n => [|n IH] //; cbn [val]; rewrite Eo El /= IH; by case: (val n h' 0).
move=> n; suff E : forall m g, ext h' g -> op_T m g 1 = Err RecursionError.
  by rewrite /exec E //; apply: ext_refl.
elim=> [|m IH] g X //; cbn [op_T]; have [_ _ Xt Xo] := X.
rewrite (Xo _ _ Eo) /= (Xt _ _ El); cbn [deref bind mapH].
have [->|[g' [o' [-> X']]]] : op_T m g 0 = Err RecursionError \/ exists g' o', op_T m g 0 = Ok (g', o') /\ ext g g'.
  case: (m) => [|k]; first by left.
  right; cbn [op_T]; rewrite (Xo _ _ E0) /=; eexists _, _; split; first by [].
  exact: ext_obj.
  by [].
by cbn [bind fst]; rewrite IH //; apply: ext_trans X X'.
Qed.

(* After X[k] = C with another mode size, the attribute X.shape is out of date. *)
Theorem C56_setitem_stale_refuted :
  exists (h : heap Z) o k v h' x h2 w a, [/\ exec 1 h (CSetItem Z o k v) = Ok (h', ANone Z),
    at_ (objs h') o = Some x, exec 1 h' (CToNumpy Z o) = Ok (h2, AView Z w), rd h2 w = Some a &
    nshape a <> oshape x].
Proof.
pose C : nd Z := Nd [:: 2; 3; 1]%N [:: 1; 2; 3; 4; 5; 6].
pose h := run 1 ex_h [:: CArray C]; pose h' := aft 1 h (CSetItem Z 1 1 (V 4 [:: 2; 3; 1]%N)).
exists h, 1%N, 1%N, (V 4 [:: 2; 3; 1]%N), h', (OTT [:: 2; 2]%N [:: 2]%N 0), (aft 1 h' (CToNumpy Z 1)), (V 5 [:: 2; 3]%N).
exists (Nd [:: 2; 3]%N [:: 9; 12; 15; 19; 26; 33]).
by split; [vm_compute..|vm_compute].
Qed.
End Examples.

Print Assumptions C56_nothing_else_changes.
Print Assumptions C56_T.
Print Assumptions C56_mul.
Print Assumptions C56_neg.
Print Assumptions C56_mul_list.
Print Assumptions C56_add.
Print Assumptions C56_sub.
Print Assumptions C56_dense.
Print Assumptions C56_to_sparse.
Print Assumptions C56_split.
Print Assumptions C56_tt_add.
Print Assumptions C56_to_numpy.
Print Assumptions C56_constructors.
Print Assumptions C56_gather.
Print Assumptions C56_iadd.
Print Assumptions C56_add_snapshot.
Print Assumptions C56_write.
Print Assumptions C56_mul_independent.
Print Assumptions C56_tt_add_independent.
Print Assumptions C56_to_numpy_independent.
Print Assumptions C56_T_is_a_view.
Print Assumptions C56_split_is_a_view.
Print Assumptions C56_setitem.
Print Assumptions C56_to_numpy_aliases_refuted.
Print Assumptions C56_mul_shares_refuted.
Print Assumptions C56_gather_stale_refuted.
Print Assumptions C56_shared_list_refuted.
Print Assumptions C56_self_nesting_refuted.
Print Assumptions C56_setitem_stale_refuted.
