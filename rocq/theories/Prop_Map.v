(* Property C43: TTLinearMapSum (tt_gmres.py:171-206). *)
From Coq Require Import String Ascii NArith.
From mathcomp Require Import all_ssreflect all_algebra.
From mathcomp Require Import zify.
From Verif Require Import Py Nd Utils Tensor TensorNum Sketch Mpo Gmres Spec LinSpec RecSpec SkSpec MpoSpec GmresSpec.
From Verif Require Import NdThy Ein MatThy TensorThy TensorThy2 ChainThy SweepThy RoundThy SkThy1 SkThy2 RecThy3 MpoThy PrecThy Prop_Mpo Prop_Prec GmresThy1 Ex.
Set Implicit Arguments. Unset Strict Implicit. Unset Printing Implicit Defensive.
Import GRing.Theory Num.Theory.
Local Open Scope ring_scope.

Section Map.
Variable R : rcfType.
Notation arr := (nd R).
Notation tensor := (tensor R).
Implicit Types (f : ttmap R) (fs : seq (ttmap R)).

(* the constructor accepts exactly the non-empty lists of maps with equal shapes *)
Definition same_shapes fs : bool :=
  if fs is f :: fs' then all (fun g => (map_in g == map_in f) && (map_out g == map_out f)) fs' else false.
Theorem C43_constructor fs :
  if same_shapes fs then
    exists A, [/\ mapsum_new fs = Ok A, m_maps A = fs & forall f, List.In f fs -> m_in A = map_in f /\ m_out A = map_out f]
  else mapsum_new fs = Err ValueError.
Proof.
case: fs => [|f fs] //; rewrite /mapsum_new.
have -> : foldM (fun (_ : unit) g => if map_in g != map_in f then Err ValueError
    else if map_out g != map_out f then Err ValueError else Ok tt) tt fs
  = if same_shapes (f :: fs) then Ok tt else Err ValueError.
  by elim: fs => [|g fs IH] //=; case: eqP => //= _; case: eqP => //=.
case: (boolP (same_shapes _)) => //= h; eexists; split=> // g [<- //|].
by elim: fs h => //= k ks IH /andP[/andP[/eqP h1 /eqP h2] h] [<-|]; [split|exact: IH].
Qed.

(* MPOs and preconditioners: the shapes that are compared are the second and third axes of the cores,
   and the shape given to the preconditioner *)
Definition row_shape (f : ttmap R) : seq nat :=
  match f with MapMpo ms => [seq nth 0%N (nshape M) 1 | M <- ms] | MapPre p => p_shape p | MapUser s _ _ => s end.
Definition column_shape (f : ttmap R) : seq nat :=
  match f with MapMpo ms => [seq nth 0%N (nshape M) 2 | M <- ms] | MapPre p => p_shape p | MapUser _ t _ => t end.
Theorem C43_shapes f fs : mapsum_new (f :: fs) =
  if all (fun g => (row_shape g == row_shape f) && (column_shape g == column_shape f)) fs
  then Ok (MapSum (f :: fs) (row_shape f) (column_shape f)) else Err ValueError.
Proof.
have hr g : map_in g = row_shape g by case: g.
have hc g : map_out g = column_shape g by case: g.
rewrite /mapsum_new !hr !hc; set F := (fun _ : unit => _).
have -> : foldM F tt fs = if all (fun g => (row_shape g == row_shape f) && (column_shape g == column_shape f)) fs then Ok tt else Err ValueError.
  by elim: fs => [|g fs IH] //; rewrite /= /F hr hc; case: eqP => //= _; case: eqP => //= _.
by case: ifP.
Qed.

Lemma mapsum_newE fs A : mapsum_new fs = Ok A -> exists mi mo, A = MapSum fs mi mo.
Proof.
case: fs => [|f gs] //; rewrite /mapsum_new; case: (foldM _ _ _) => //= _ [<-].
by exists (map_in f), (map_out f).
Qed.

Variables (qr : arr -> res (arr * arr)) (solve_tri : arr -> arr -> res arr).
Hypotheses (qrP : qr_tri_contract qr) (solP : solve_tri_contract solve_tri).
Notation map_call := (map_call solve_tri).
Notation mapsum_call := (mapsum_call solve_tri).

(* A(x) is the sum over all maps: [map_act f s x] (GmresSpec.v) is the matrix of f times x *)
Theorem C43_call fs A s t X x : mapsum_new fs = Ok A ->
  (forall f, List.In f fs -> map_ok qr f s t) -> is_train s X \/ is_train_sum s X -> to_numpy X = Ok x ->
  or_linalg (mapsum_call A X) (fun Y => is_train_sum t Y /\ exists y,
    [/\ to_numpy Y = Ok y, nshape y = t &
        forall j, inb t j -> get y j = \sum_(f <- fs) map_act f s (get x) j]).
Proof.
move=> eA hf hX ex.
have [mi [mo ->]] := mapsum_newE eA.
have nf : ~~ nilp fs by move: eA; case: (fs).
have [wX sX] : wf X /\ tshape X = s by case: hX => [/train_wf|/train_sum_wf].
apply: or_imp (@mapsum_callE _ _ _ qrP solP fs s t X mi mo nf hf hX) _ => Y [hY gY].
split=> //; have [wY sY] := train_sum_wf hY; have [y ey [wy sy gy]] := to_numpyE wY.
exists y; split=> //; first by rewrite sy.
move=> j hj; rewrite gy ?sY // gY //; have [h _] := maps_act_lin hf; apply: h => // i hi.
have [x' ex' [wx sx gx]] := to_numpyE wX; move: ex'; rewrite ex => -[ex']; by rewrite ex' gx // sX.
Qed.

(* for MPOs nothing can raise; in terms of the matrices of the MPOs *)
Theorem C43_call_mpo (mss : seq (seq arr)) A s t X x : mapsum_new [seq MapMpo ms | ms <- mss] = Ok A ->
  (forall ms, List.In ms mss -> [/\ wf_mpo ms, mpo_in ms = s & mpo_out ms = t]) ->
  is_train s X \/ is_train_sum s X -> to_numpy X = Ok x ->
  exists Y y Ms, [/\ mapsum_call A X = Ok Y, is_train_sum t Y, to_numpy Y = Ok y /\ nshape y = t,
    mapM (fun ms => mpo_to_numpy ms) mss = Ok Ms &
    forall j, inb t j -> get y j = \sum_(M <- Ms) sum_idx s (fun i => get M (weave i j) * get x i)].
Proof.
move=> eA hm hX ex; have hf f : List.In f [seq MapMpo ms | ms <- mss] -> map_ok qr f s t.
  elim: (mss) hm => //= ms l IH hm [<-|]; first exact: hm (or_introl erefl).
  by apply: IH => ms' h; apply: hm; right.
have tot : exists Y, mapsum_call A X = Ok Y.
  have [mi [mo ->]] := mapsum_newE eA.
  rewrite /Gmres.mapsum_call; set L := (if X is TT _ then _ else _).
  have [Xs -> [hXs nX]] : exists2 Xs, L = Ok Xs & all (is_train s) Xs /\ ~~ nilp Xs.
    rewrite /L; case: hX => [/trainP[cs -> [w e]]|/train_sumP[Xs -> [n h]]]; last by exists Xs.
    by exists [:: TT cs] => //; split=> //; rewrite /all andbT; apply/trainP; exists cs.
  rewrite /=; set F := (fun p : _ * _ => _).
  have [Zs eZ nZ] : exists2 Zs, mapM F [seq (f, Y) | f <- [seq MapMpo ms | ms <- mss], Y <- Xs] = Ok Zs &
      size Zs = (size mss * size Xs)%N.
    elim: (mss) hm => [|ms l IH] hm; first by exists [::].
    have [|Z2 e2 s2] := IH; first by move=> ms' h; apply: hm; right.
    have [Z1 e1 s1] : exists2 Z1, mapM F [seq (MapMpo ms, Y) | Y <- Xs] = Ok Z1 & size Z1 = size Xs.
      elim: (Xs) hXs => [|Y Ys IHY] /=; first by exists [::].
      move=> /andP[/trainP[cs -> [w e]] /IHY[Z1 -> sz]] /=; have [wm ei eo] := hm ms (or_introl erefl).
      rewrite -ei in e; have [ys ey _] := callE wm w (esym e).
      rewrite /F /= ey; by exists (TT ys :: Z1) => //=; rewrite sz.
    exists (Z1 ++ Z2); last by rewrite size_cat s1 s2.
    have mapM_cat l1 l2 : mapM F (l1 ++ l2) = (do a <- mapM F l1; do b <- mapM F l2; Ok (a ++ b)).
      elim: l1 => [|z l1 IHl] /=; first by case: (mapM F l2).
      case: (F z) => //= u; rewrite IHl; case: (mapM F l1) => //= a; by case: (mapM F l2).
    by rewrite /= mapM_cat e1 /= e2.
  rewrite eZ /=; case: Zs nZ {eZ} => [|Z Zs] //=; last by eexists.
  by move: nX eA; case: (mss) => //; case: (Xs).
have [Y eY] := tot; have := C43_call eA hf hX ex; rewrite eY => -[hY [y [ey sy gy]]].
have [Ms eM gM] : exists2 Ms, mapM (fun ms => mpo_to_numpy ms) mss = Ok Ms &
    forall j, inb t j -> \sum_(f <- [seq MapMpo ms | ms <- mss]) map_act f s (get x) j =
       \sum_(M <- Ms) sum_idx s (fun i => get M (weave i j) * get x i).
  elim: (mss) hm => [|ms l IH] hm; first by exists [::] => // j _; rewrite !big_nil.
  have [|Ms eM gM] := IH; first by move=> ms' h; apply: hm; right.
  have [wm ei eo] := hm ms (or_introl erefl); have [M e [wM sM gg]] := mpo_to_numpyE wm.
  exists (M :: Ms); first by rewrite /= e /= eM.
  move=> j hj; rewrite !big_cons gM //; congr (_ + _); apply: eq_sum_idx => i hi; rewrite gg ?ei ?eo //.
exists Y, y, Ms; split=> //; move=> j hj; by rewrite gy // gM.
Qed.

(* the summands come map by map: number a * n + b is the a-th map applied to the b-th summand *)
Theorem C43_summands fs A X Y Xs : mapsum_new fs = Ok A -> Xs = (if X is TSum _ Xs then Xs else [:: X]) ->
  mapsum_call A X = Ok Y ->
  exists Ys, [/\ Y = TSum (tshape (head Y Ys)) Ys, size Ys = (size fs * size Xs)%N &
    forall a b, (a < size fs)%N -> (b < size Xs)%N -> exists cs ys,
      [/\ nth X Xs b = TT cs, map_call (nth (MapMpo [::]) fs a) cs = Ok ys & nth Y Ys (a * size Xs + b) = TT ys]].
Proof.
move=> eA eX; have [mi [mo ->]] := mapsum_newE eA.
rewrite /Gmres.mapsum_call; set L := (if X is TT _ then _ else _).
case eL : L => [Xs'|] //=; have -> : Xs' = Xs.
  by move: eL; rewrite eX /L; case: (X) => [?|? ? ?|?|?|? ?|? ?] //= [].
set F := (fun p : _ * _ => _); case eM : (mapM F _) => [Ys|] //= eY.
exists Ys.
have gen (l : seq (ttmap R * tensor)) Zs (d : tensor) : mapM F l = Ok Zs -> size Zs = size l /\
    forall k, (k < size l)%N -> F (nth (MapMpo [::], d) l k) = Ok (nth d Zs k).
  elim: l Zs => [|z l IH] Zs /=; first by case=> <-.
  case e : (F z) => [u|] //=; case e' : (mapM F l) => [us|] //= [<-]; have [sz h] := IH us e'.
  by rewrite /= sz; split=> // -[|k] //= hk; apply: h.
have [sY gY] := gen _ _ Y eM; rewrite size_allpairs in sY gY; split=> //.
  by move: eY; rewrite /mk_sum; case: (Ys) => // Z Zs [<-].
move=> a b ha hb; have hk : (a * size Xs + b < size fs * size Xs)%N by exact: flat_lt.
have en : nth (MapMpo [::], Y) [seq (f, Z) | f <- fs, Z <- Xs] (a * size Xs + b) = (nth (MapMpo [::]) fs a, nth X Xs b).
  elim: (fs) a ha {hk} => [|f gs IH] [|a] //= ha; rewrite nth_cat size_map.
    by rewrite mul0n add0n hb (nth_map X).
  by rewrite mulSn -addnA ltnNge leq_addr /= addKn IH.
have := gY _ hk; rewrite en /F /=; case: (nth X Xs b) => [?|? ? ?|cs|?|? ?|? ?] //=.
by case e : (map_call _ cs) => [ys|] //= [<-]; exists cs, ys.
Qed.
End Map.

(* errors of the constructor on concrete shapes; a mixed sum *)
Example C43_nonvacuous (R : rcfType) : exists A : mapsum R,
  mapsum_new [:: MapMpo [:: zeros R [:: 1; 2; 3; 1]; zeros R [:: 1; 2; 2; 1]]%N;
                 MapMpo [:: zeros R [:: 1; 2; 3; 2]; zeros R [:: 2; 2; 2; 1]]%N] = Ok A /\
  mapsum_new [:: MapMpo [:: zeros R [:: 1; 2; 3; 1]%N]; MapMpo [:: zeros R [:: 1; 3; 3; 1]%N]] = Err ValueError.
Proof. by eexists; split. Qed.
Print Assumptions C43_constructor.
Print Assumptions C43_shapes.
Print Assumptions C43_call.
Print Assumptions C43_call_mpo.
Print Assumptions C43_summands.
