(* Proofs about sketches used as tensors (Mixed.v). *)
From Coq Require Import String Ascii NArith.
From mathcomp Require Import all_ssreflect all_algebra.
From mathcomp Require Import zify.
From Verif Require Import Py Nd NdThy Ein Utils Tensor Spec LinSpec ChainThy TensorThy TensorThy2.
From Verif Require Import TensorThy3 TensorThy4 GatherThy DotThy TrimThy TensorNum SweepThy NormThy ErrThy.
From Verif Require Import Sketch Mixed MixedSpec.
Set Implicit Arguments. Unset Strict Implicit. Unset Printing Implicit Defensive.
Import GRing.Theory Num.Theory Order.TTheory.
Local Open Scope ring_scope.

Section T.
Variable R : rcfType.
Notation arr := (nd R).
Notation tensor := (tensor R).
Notation any := (any R).
Variable lstsq : arr -> arr -> res arr.
Notation stands_for := (stands_for lstsq).
Notation a_to_numpy := (a_to_numpy lstsq).
Notation a_dot := (a_dot lstsq).
Implicit Types (X Y : any) (T U : tensor).

Lemma any_ind' (P : any -> Prop) :
  (forall T, P (ALeaf T)) -> (forall st, P (ASk st)) ->
  (forall s Xs, (forall x, List.In x Xs -> P x) -> P (ASum s Xs)) -> forall X, P X.
Proof.
move=> HL HS HSum; fix IH 1; case=> [T|st|s Xs]; [exact: HL|exact: HS|].
apply: HSum; elim: Xs => [|x Xs IHl] y Hy; first by case: Hy.
by case: Hy => [E|Hy]; [case: _ / E; exact (IH x)|exact: (IHl y Hy)].
Qed.

Definition all_stand := (fix all_stand (l : seq any) (m : seq tensor) : Prop := match l, m with
           | [::], [::] => True
           | x :: l', t :: m' => stands_for x t /\ all_stand l' m'
           | _, _ => False
           end).

Lemma stands_sum s Xs T : stands_for (ASum s Xs) T -> exists2 Ts, T = TSum s Ts & all_stand Xs Ts.
Proof. by case: T => //= s' Ts [<- h]; exists Ts. Qed.

Lemma stands_shape X T : stands_for X T -> a_shape X = tshape T.
Proof. by case: X => [U [->]|st [cs _ [e ->]]|s Xs /stands_sum[Ts -> _]]. Qed.

Lemma all_stand_In Xs Ts x : all_stand Xs Ts -> List.In x Xs -> exists2 t, List.In t Ts & stands_for x t.
Proof.
elim: Xs Ts => [|y Xs IH] [|t Ts] //= [h1 h2] [<-|hx]; first by exists t => //; left.
by have [u hu hs] := IH _ h2 hx; exists u => //; right.
Qed.

Lemma a_to_numpyE X T : stands_for X T -> a_to_numpy X = to_numpy T.
Proof.
elim/any_ind': X T => [U|st|s Xs IH] T; first by case=> ->.
  by case=> cs /= -> [_ ->].
case/stands_sum=> Ts -> /=; move: (zeros R s); elim: Xs Ts IH => [|x Xs IHl] [|t Ts] // IH acc [h1 h2].
rewrite (IH x _ t h1); last by left.
case: (to_numpy t) => //= a; case: (iadd acc a) => //= acc'.
by apply: IHl => // y hy; apply: IH; right.
Qed.

Lemma nesting_In (x : any) Xs : List.In x Xs -> (nesting x <= foldr maxn 0%N (map (@nesting R) Xs))%N.
Proof.
elim: Xs => [|y Xs IH] //= [->|/IH H]; first exact: leq_maxl.
by apply: leq_trans H _; apply: leq_maxr.
Qed.

Definition asum X := if X is ASum _ _ then true else false.

Definition a_dot_list (f : any -> option (res R)) (Xs : seq any) : option (res R) :=
  foldr (fun x acc =>
              match f x, acc with
              | Some (Ok v), Some (Ok w) => Some (Ok (v + w))
              | Some (Err e), _ => Some (Err e)
              | Some _, Some (Err e) => Some (Err e)
              | _, _ => None
              end) (Some (Ok 0)) Xs.

Lemma a_dot_sumE n s Xs Y b : a_dot n.+1 (ASum s Xs) Y b = a_dot_list (fun x => a_dot n x Y b) Xs.
Proof. by []. Qed.

Lemma a_dot_swap n X Y b : (if X is ASk _ then false else true) -> ~~ asum X -> asum Y ->
  a_dot n.+1 X Y b = a_dot n Y X false.
Proof. by case: X => [[]|st|s Xs] //; case: Y. Qed.

Lemma a_dot_sk n st cs Y b : stt_to_tt lstsq st = Ok cs -> a_dot n.+1 (ASk st) Y b = a_dot n (ALeaf (TT cs)) Y b.
Proof. by move=> /= ->. Qed.

Lemma a_dot_plain n T U b : not_sum T -> not_sum U -> a_dot n (ALeaf T) (ALeaf U) b = dot n T U b.
Proof.
elim: n T U b => [|n IH] T U b nT nU //.
have h : (if ~~ b then a_dot n (ALeaf U) (ALeaf T) true else Some (a_dense_dot lstsq (ALeaf T) (ALeaf U)))
   = (if ~~ b then dot n U T true else Some (dense_dot T U)) by case: b; rewrite /= ?IH.
case: T nT h => [a|s i v|cs|cs|fs c|s Xs] // nT h; case: U nU h => [a'|s' i' v'|cs'|cs'|fs' c'|s' Xs'] // nU h;
  by rewrite [LHS]/= h.
Qed.

Lemma stands_leaf X T : stands_for X T -> ~~ asum X -> not_sum T.
Proof. by case: X => [U [_]|st [cs _ [_ ->]]|]. Qed.

Lemma not_sumE T : not_sum T = ~~ is_sum T. Proof. by case: T. Qed.

Lemma a_dense_dotE X Y T U : stands_for X T -> stands_for Y U -> wf T -> wf U -> tshape T = tshape U ->
  a_dense_dot lstsq X Y = Ok (inner T U).
Proof.
move=> hX hY wT wU S; have := dense_dotE wT wU S.
by rewrite /dense_dot /a_dense_dot (a_to_numpyE hX) (a_to_numpyE hY).
Qed.

Lemma a_dot_leaf n X Y T U b : stands_for X T -> stands_for Y U -> wf T -> wf U -> tshape T = tshape U ->
  (0 < size (tshape T))%N -> ~~ asum X -> ~~ asum Y -> a_dot n.+4.+1 X Y b = Some (Ok (inner T U)).
Proof.
move=> hX hY wT wU S s0 nX nY.
have leafs m (T' U' : tensor) b' : wf T' -> wf U' -> tshape T' = tshape U' -> (0 < size (tshape T'))%N ->
    not_sum T' -> not_sum U' -> a_dot m.+2 (ALeaf T') (ALeaf U') b' = Some (Ok (inner T' U')).
  by move=> w1 w2 S' s0' n1 n2; rewrite a_dot_plain // dot_leaf // -not_sumE.
have nT := stands_leaf hX nX; have nU := stands_leaf hY nY.
have s0' : (0 < size (tshape U))%N by rewrite -S.
have left m V : V = T -> not_sum V -> a_dot m.+4 (ALeaf V) Y b = Some (Ok (inner T U)).
  move=> eV nV; subst V.
  have hXl : stands_for (ALeaf T) T by [].
  case: Y hY nY => [U'|st|s Ys] // hY _; first by case: hY => -> _; apply: leafs.
  have D := a_dense_dotE hXl hY wT wU S.
  have [cs ecs [_ eU]] := hY; subst U.
  have h : (if ~~ b then a_dot m.+3 (ASk st) (ALeaf T) true else Some (a_dense_dot lstsq (ALeaf T) (ASk st)))
     = Some (Ok (inner T (TT cs))).
    by case: b; rewrite [~~ _]/= ?D // (a_dot_sk _ _ _ ecs) leafs // (inner_sym S).
  clear leafs D; case: T nT wT S s0 hX hXl nV h => [a|s i v|cs'|cs'|fs c|s Xs] // *; assumption.
case: X hX nX => [V [eV nV]|st [cs ecs [_ eT]]|s Xs] // _.
  by apply: left; rewrite ?eV.
by rewrite (a_dot_sk _ _ _ ecs) left ?eT.
Qed.

Lemma all_stand_dot Xs Ts (f : any -> option (res R)) (g : tensor -> R) :
  all_stand Xs Ts -> (forall x t, List.In x Xs -> List.In t Ts -> stands_for x t -> f x = Some (Ok (g t))) ->
  a_dot_list f Xs = Some (Ok (\sum_(t <- Ts) g t)).
Proof.
elim: Xs Ts => [|x Xs IH] [|t Ts] //= hs h; first by rewrite big_nil.
case: hs => h1 h2; rewrite big_cons (h x t) //; [|by left|by left].
by rewrite -/(a_dot_list f Xs) (IH Ts) // => y u hy hu; apply: h; right.
Qed.

Lemma a_dot_suml X Y T U b n : ~~ asum Y -> stands_for X T -> stands_for Y U -> wf T -> wf U ->
  tshape T = tshape U -> (0 < size (tshape T))%N -> (nesting X + 4 < n)%N ->
  a_dot n X Y b = Some (Ok (inner T U)).
Proof.
move=> nY; elim/any_ind': X T b n => [V|st|s Xs IH] T b n hX hY wT wU S s0 hn; rewrite /= in hn.
- by case: n hn => [|[|[|[|[|n]]]]] // _; apply: a_dot_leaf hX hY _ _ _ _ _ _.
- by case: n hn => [|[|[|[|[|n]]]]] // _; apply: a_dot_leaf hX hY _ _ _ _ _ _.
case: n hn => // n hn; have [Ts eT hTs] := stands_sum hX; subst T.
rewrite a_dot_sumE (inner_suml _ (all_sh wT)).
apply: (all_stand_dot (g := fun t => inner t U) hTs) => x t hx ht hs.
have [w' s'] := wf_sum_In wT ht; have hd := nesting_In hx.
apply: IH => //; rewrite ?s' //; by move: hn hd; clear; lia.
Qed.

Lemma a_dotE X Y T U b n : stands_for X T -> stands_for Y U -> wf T -> wf U ->
  tshape T = tshape U -> (0 < size (tshape T))%N -> (nesting X + nesting Y + 6 < n)%N ->
  a_dot n X Y b = Some (Ok (inner T U)).
Proof.
elim/any_ind': X T b n => [V|st|s Xs IH] T b n hX hY wT wU S s0 hn.
3: {
  case: n hn => // n hn; have [Ts eT hTs] := stands_sum hX; subst T.
  rewrite a_dot_sumE (inner_suml _ (all_sh wT)).
  apply: (all_stand_dot (g := fun t => inner t U) hTs) => x t hx ht hs.
  have [w' s'] := wf_sum_In wT ht; have hd := nesting_In hx.
  apply: IH => //; rewrite ?s' //; by move: hn hd => /=; clear; lia. }
all: case hYs: (asum Y); last by (apply: (a_dot_suml _ _ hX hY); rewrite ?hYs //; move: hn; clear; lia).
  case: n hn => // n hn; rewrite a_dot_swap // (inner_sym S).
  by apply: (a_dot_suml _ _ hY hX); rewrite -?S //; move: hn; clear; rewrite /=; lia.
case: n hn => [|[|n]] hn; [by rewrite ltn0 in hn|by move: hn; clear; lia|].
have [cs ecs [_ eT]] := hX; subst T; rewrite (a_dot_sk _ _ _ ecs) a_dot_swap // (inner_sym S).
have hXl : stands_for (ALeaf (TT cs)) (TT cs) by [].
by apply: (a_dot_suml _ _ hY hXl); rewrite -?S //; move: hn; clear; rewrite /=; lia.
Qed.

Variable qr : arr -> res (arr * arr).
Hypothesis qrP : qr_contract qr.

Lemma a_normP n X T : stands_for X T -> wf T -> (0 < size (tshape T))%N -> (nesting X + nesting X + 6 < n)%N ->
  (if X is ALeaf (TT cs) then pos_tt cs else true) ->
  or_linalg (a_norm lstsq qr n X) (fun v => v = Num.sqrt (sqnorm_of T)).
Proof.
move=> hX wT s0 hn pX.
have hd : or_linalg (match a_dot n X X false with
         | Some r => do v <- r; Ok (Num.sqrt `|v|)
         | None => Err RecursionError
         end) (fun v => v = Num.sqrt (sqnorm_of T)).
  by rewrite (a_dotE false hX hX) //= inner_sq ger0_norm // sqnorm_of_ge0.
case: X hX hn pX hd => [V|st|s Xs] hX hn pX hd //.
case: hX => eV nV; subst V.
case: T wT s0 nV hn pX hd => [a|s i v|cs|cs|fs c|s Xs] // wT s0 nV hn pX hd.
  by have /= := @tnormP R qr qrP 3 _ wT s0 isT pX.
exact: (tt_normP qrP wT pX).
Qed.

Lemma a_tensor_errorP n X Y T U relative rmse (fast : bool) : stands_for X T -> stands_for Y U ->
  wf T -> wf U -> tshape T = tshape U -> (0 < size (tshape T))%N ->
  (nesting X + nesting Y + nesting X + nesting Y + 6 < n)%N ->
  (if X is ALeaf (TT cs) then pos_tt cs else true) -> (if Y is ALeaf (TT cs) then pos_tt cs else true) ->
  (fast -> (sqnorm_of T != 0) || (sqnorm_of U != 0)) ->
  or_linalg (a_tensor_error lstsq qr n X Y relative rmse fast) (fun e =>
    e = expected (Num.sqrt (sqdist T U)) (Num.sqrt (sqnorm_of U)) relative rmse (tshape T)).
Proof.
move=> hX hY wX wY S s0 hn pX pY hf; rewrite /a_tensor_error.
have nY : (nesting Y + nesting Y + 6 < n)%N by move: hn; clear; lia.
have nX : (nesting X + nesting X + 6 < n)%N by move: hn; clear; lia.
have sY : (0 < size (tshape U))%N by rewrite -S.
apply: (or_bind (a_normP hY wY sY nY pY)) => _ ->.
case: fast hf => hf.
  apply: (@or_bind _ _ _ _ (fun e => e = Num.sqrt (sqdist T U))); last first.
    by move=> _ ->; rewrite error_tailE (stands_shape hX).
  apply: (or_bind (a_normP hX wX s0 nX pX)) => _ ->.
  rewrite (a_dotE false hX hY) //; last by move: hn; clear; lia.
  rewrite [bind _ _]/= !sqr_sqrtr ?sqnorm_of_ge0 //.
  have N0 : sqnorm_of T + sqnorm_of U != 0.
    rewrite paddr_eq0 ?sqnorm_of_ge0 //; case/orP: (hf isT) => /negbTE ->; rewrite ?andbF //.
  rewrite (negbTE N0) /=; rewrite -sqrtrM ?addr_ge0 ?sqnorm_of_ge0 //; congr Num.sqrt.
  set N := _ + _ in N0 *; have Np : 0 < N by rewrite lt_neqAle eq_sym N0 addr_ge0 ?sqnorm_of_ge0.
  rewrite -{1}(ger0_norm (ltW Np)) -normrM mulrBr mulr1 mulrCA -mulrA divff // mulr1.
  by rewrite -sqdistE // ger0_norm // sqdist_ge0.
rewrite (a_to_numpyE hX) (a_to_numpyE hY).
have [a Ea [wa sa ga]] := to_numpyE wX; have [b Eb [wb sb gb]] := to_numpyE wY.
rewrite Ea Eb [bind (Ok a) _]/= /nsub elementwiseE; last by rewrite sa sb.
rewrite [bind (Ok _) _]/= error_tailE /nnorm sqnormE ?nwf_tab //= sa (stands_shape hX); congr expected.
congr Num.sqrt; apply: eq_sum_idx => i hi; rewrite get_tab ?sa // ga // gb -?S //.
Qed.

Lemma a_errorP n X Y T U relative rmse (fast : bool) : stands_for X T -> stands_for Y U ->
  wf T -> wf U -> tshape T = tshape U -> (0 < size (tshape T))%N ->
  (nesting X + nesting Y + nesting X + nesting Y + 6 < n)%N ->
  (if T is TT cs then pos_tt cs else true) -> (if U is TT cs then pos_tt cs else true) ->
  (if T is TT _ then if U is TT _ then (2 <= size (tshape T))%N else true else true) ->
  (fast -> (sqnorm_of T != 0) || (sqnorm_of U != 0)) ->
  or_linalg (a_error lstsq qr n X Y relative rmse fast) (fun e =>
    e = expected (Num.sqrt (sqdist T U)) (Num.sqrt (sqnorm_of U)) relative rmse (tshape T)).
Proof.
move=> hX hY wX wY S s0 hn pX pY h2 hf.
have pX' : (if X is ALeaf (TT cs) then pos_tt cs else true) : bool.
  by case: (X) hX => // V [->]; case: (T) pX.
have pY' : (if Y is ALeaf (TT cs) then pos_tt cs else true) : bool.
  by case: (Y) hY => // V [->]; case: (U) pY.
have := a_tensor_errorP relative rmse hX hY wX wY S s0 hn pX' pY' hf.
have tt cs1 cs2 : T = TT cs1 -> U = TT cs2 -> or_linalg (tt_error qr cs1 cs2 relative rmse) (fun e =>
    e = expected (Num.sqrt (sqdist T U)) (Num.sqrt (sqnorm_of U)) relative rmse (tshape T)).
  move=> e1 e2; subst T U; apply: tt_errorP => //.
  by move: h2; rewrite /= size_map.
case: X hX {hn pX' pY'} => [V [eV _]|st _|s Xs _] //.
subst V; case: T wX S s0 pX h2 hf tt => [a|s i v|cs|cs|fs c|s Xs] wX S s0 pX h2 hf tt //.
case: Y hY => [W [eW _]|st [cs2 e2 [_ eU]]|s Xs _] //; last by rewrite [a_error _ _ _ _ _ _ _ _]/= e2 /= => _; apply: tt.
subst W; case: U wY S pY h2 hf tt => [a|s i v|cs'|cs'|fs c|s Xs] wY S pY h2 hf tt //.
by rewrite [a_error _ _ _ _ _ _ _ _]/= => _; apply: tt.
Qed.
End T.
