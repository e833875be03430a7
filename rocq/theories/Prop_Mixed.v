(* Property C58: a SketchedTensorTrain used as a Tensor. *)
From Coq Require Import String Ascii NArith.
From mathcomp Require Import all_ssreflect all_algebra.
From mathcomp Require Import zify.
From Verif Require Import Py Nd NdThy Ein Utils Tensor Hash Sketch Spec LinSpec ChainThy TensorThy TensorThy2 TensorThy3 TensorThy4 GatherThy DotThy TrimThy SweepThy.
From Verif Require Import TensorNum NormThy ErrThy RoundThy RoundThy2 SkSpec SkThy1 SkThy7 SkThy8 SkThy9 SkThy10 SkThy12 SkThy13 SkThy14 RecSpec RecThy1 Prop_Sketch Prop_Recovery Mixed MixedSpec MixedThy.
Set Implicit Arguments. Unset Strict Implicit. Unset Printing Implicit Defensive.
Import GRing.Theory Num.Theory Order.TTheory.
Local Open Scope ring_scope.

Section Values.
Variable R : rcfType.
Variable lstsq : nd R -> nd R -> res (nd R).
Variable qr : nd R -> res (nd R * nd R).
Hypothesis qrP : qr_contract qr.
Notation stands_for := (stands_for lstsq).
Notation a_to_numpy := (a_to_numpy lstsq).
Implicit Types (X Y : any R) (T U : tensor R).

(* [stands_for X T]: T is X with every sketch in it replaced by the train its to_tt() gives.
   The shape and the array of X are those of T. *)
Theorem C58_to_numpy X T : stands_for X T -> wf T ->
  exists2 a, a_to_numpy X = Ok a & [/\ nwf a, nshape a = a_shape X & to_numpy T = Ok a].
Proof.
move=> h w; rewrite (a_to_numpyE h); have [a -> [wa sa _]] := to_numpyE w.
by exists a => //; split=> //; rewrite sa (stands_shape h).
Qed.

(* dot is the sum of the products of the entries, whichever operands are sketches *)
Theorem C58_dot X Y T U n reverse : stands_for X T -> stands_for Y U -> wf T -> wf U ->
  a_shape X = a_shape Y -> (0 < size (a_shape X))%N -> (nesting X + nesting Y + 6 < n)%N ->
  exists a b, [/\ a_to_numpy X = Ok a, a_to_numpy Y = Ok b &
    a_dot lstsq n X Y reverse = Some (Ok (sum_idx (a_shape X) (fun i => get a i * get b i)))].
Proof.
move=> hX hY wT wU S s0 hn; rewrite (a_to_numpyE hX) (a_to_numpyE hY).
rewrite (stands_shape hX) in S s0 *; rewrite (stands_shape hY) in S.
have [a -> [_ _ Ga]] := to_numpyE wT; have [b -> [_ _ Gb]] := to_numpyE wU.
exists a, b; split=> //; rewrite (a_dotE reverse hX hY) //; congr (Some (Ok _)); apply: eq_sum_idx => i Hi.
by rewrite Ga // Gb // -S.
Qed.

Theorem C58_norm X T n : stands_for X T -> wf T -> (0 < size (a_shape X))%N -> (nesting X + nesting X + 6 < n)%N ->
  (if X is ALeaf (TT cs) then pos_tt cs else true) ->
  exists2 a, a_to_numpy X = Ok a &
  or_linalg (a_norm lstsq qr n X) (fun v => v = Num.sqrt (sum_idx (nshape a) (fun i => get a i ^+ 2))).
Proof.
move=> hX wT s0 hn p; rewrite (stands_shape hX) in s0; rewrite (a_to_numpyE hX).
have [a Ea _] := to_numpyE wT; exists a => //.
by apply: (or_imp (a_normP qrP hX wT s0 hn p)) => v ->; rewrite (sqnorm_obs wT Ea).
Qed.

(* error, in both directions; [expected] as in C15 *)
Theorem C58_error X Y T U n (relative rmse fast : bool) : stands_for X T -> stands_for Y U -> wf T -> wf U ->
  a_shape X = a_shape Y -> (0 < size (a_shape X))%N -> (nesting X + nesting Y + nesting X + nesting Y + 6 < n)%N ->
  (if T is TT cs then pos_tt cs else true) -> (if U is TT cs then pos_tt cs else true) ->
  (if T is TT _ then if U is TT _ then (2 <= size (tshape T))%N else true else true) ->
  exists a b, [/\ a_to_numpy X = Ok a, a_to_numpy Y = Ok b &
   let dist := Num.sqrt (sum_idx (nshape a) (fun i => (get a i - get b i) ^+ 2)) in
   let norm_X := Num.sqrt (sum_idx (nshape a) (fun i => get a i ^+ 2)) in
   let norm_Y := Num.sqrt (sum_idx (nshape b) (fun i => get b i ^+ 2)) in
   (fast -> (norm_X != 0) || (norm_Y != 0)) ->
   or_linalg (a_error lstsq qr n X Y relative rmse fast)
     (fun e => e = expected dist norm_Y relative rmse (nshape a))].
Proof.
move=> hX hY wX wY S s0 hn pX pY p2; rewrite (a_to_numpyE hX) (a_to_numpyE hY).
rewrite (stands_shape hX) in S s0 *; rewrite (stands_shape hY) in S.
have [a Ea [_ sa _]] := to_numpyE wX; have [b Eb _] := to_numpyE wY.
exists a, b; split=> //=; rewrite -(sqdist_obs wX wY S Ea Eb) -(sqnorm_obs wX Ea) -(sqnorm_obs wY Eb) sa.
move=> hf; apply: (a_errorP qrP relative rmse hX hY) => // /hf; rewrite !sqrtr_eq0 -!ltNge.
by case/orP=> h; apply/orP; [left|right]; rewrite gt_eqF.
Qed.

(* ---- scalar multiples: every sum with a sketch in it raises ---- *)
Definition some_sketch := (fix some (l : seq (any R)) := if l is x :: l' then has_sketch x || some l' else false).
Lemma a_mul_sum s Xs c : a_mul (ASum s Xs) c = bind (mapM (fun x => a_mul x c) Xs) (@a_mk_sum R).
Proof. by rewrite /=; congr bind; elim: Xs => //= x Xs ->. Qed.
Lemma mul_ok X T c : stands_for X T -> wf T -> ~~ has_sketch X -> exists y, a_mul X c = Ok y.
Proof.
elim/any_ind': X T => [V|st|s' Xs' IH] T hX wT // hs.
  by case: hX => -> _; have [Y /= -> _] := tmulE c wT; eexists.
have [Ts' eT hTs] := stands_sum hX; subst T; rewrite /= -/some_sketch in hs; rewrite a_mul_sum.
have ne : Xs' <> [::] by move: wT hTs; rewrite /wf wf_sumE; case: (Xs') => //; case: (Ts').
have {}wT t : List.In t Ts' -> wf t by move=> ht; case: (wf_sum_In wT ht).
suff [ys [-> /(_ ne) h]] : exists ys, mapM (fun x => a_mul x c) Xs' = Ok ys /\ (Xs' <> [::] -> ys <> [::]).
  by case: ys h => // y ys _; eexists.
elim: Xs' Ts' hTs wT IH hs {hX ne} => [|x Xs' IHl] [|t Ts'] // hTs wT IH hs; first by exists [::].
case: hTs => h1 h2; move: hs; rewrite /= negb_or => /andP[hx hs].
have [|||y ->] := IH x _ t h1; rewrite ?hx //; [by left|by apply: wT; left|].
have [|||ys [-> _]] := IHl Ts' h2 => //.
- by move=> u hu; apply: wT; right.
- by move=> z hz; apply: IH; right.
by eexists (y :: ys).
Qed.
Lemma mul_raises X T c : stands_for X T -> wf T -> has_sketch X -> a_mul X c = Err UnboundLocalError.
Proof.
elim/any_ind': X T => [V|st|s Xs IH] T hX wT // hs; rewrite a_mul_sum.
have [Ts eT hTs] := stands_sum hX; subst T; rewrite /= -/some_sketch in hs.
have {}wT t : List.In t Ts -> wf t by move=> ht; case: (wf_sum_In wT ht).
suff -> : mapM (fun x => a_mul x c) Xs = Err UnboundLocalError by [].
elim: Xs Ts hTs wT IH hs {hX} => [|x Xs IHl] [|t Ts] //= [h1 h2] wT IH; case hx: (has_sketch x) => /= hs.
  by rewrite (IH x _ t) //; [left|apply: wT; left].
have [y ->] : exists y, a_mul x c = Ok y.
  by apply: (mul_ok (T := t)); rewrite ?hx //; apply: wT; left.
rewrite /= (IHl Ts) // => [u hu|z hz]; first by apply: wT; right.
by apply: IH; right.
Qed.

Theorem C58_scaling_refuted X T c : stands_for X T -> wf T -> has_sketch X ->
  [/\ a_mul X c = Err UnboundLocalError, a_neg X = Err UnboundLocalError &
      a_div X c = Err (if c == 0 then ZeroDivisionError else UnboundLocalError)].
Proof.
move=> h w hs; split; [exact: mul_raises h w hs|exact: mul_raises h w hs|].
by rewrite /a_div; case: eqP => // _; apply: mul_raises h w hs.
Qed.
End Values.

Section Sums.
Variable R : rcfType.
Variable to_normal : N -> R.
Variable tt_random : seq nat -> seq nat -> N -> seq (nd R).
Variable stream : N -> nat -> R.
Variable offset : N -> nat -> N.
Variable right_seed_of : N -> nat -> N.
Variable lstsq : nd R -> nd R -> res (nd R).
Variable qr_econ : nd R -> res (nd R * nd R).
Notation gs := (general_sketch to_normal lstsq qr_econ).
Notation stream_sketch := (stream_sketch to_normal tt_random stream offset right_seed_of lstsq qr_econ).
Notation a_add := (a_add to_normal tt_random stream offset right_seed_of lstsq qr_econ).
Notation a_sub := (a_sub to_normal tt_random stream offset right_seed_of lstsq qr_econ).
Notation stands_for := (stands_for lstsq).
Implicit Types (T U : tensor R) (D E : drm R).

Lemma all_stand_cat Xs Ys Ts Us : all_stand lstsq Xs Ts -> all_stand lstsq Ys Us -> all_stand lstsq (Xs ++ Ys) (Ts ++ Us).
Proof. by elim: Xs Ts => [|x Xs IH] [|t Ts] //= [h1 h2] h; split=> //; apply: IH. Qed.

Definition terms (X : any R) := if X is ASum _ Xs then Xs else [:: X].
Definition tterms T := if T is TSum _ Xs then Xs else [:: T].

Lemma stands_terms X T : stands_for X T -> all_stand lstsq (terms X) (tterms T).
Proof.
case: X => [V|st|s Xs] h; last by have [Ts -> hT] := stands_sum h.
  by move: (h) => [e n]; subst V; case: (T) h n.
by move: (h) => [cs e [_ eT]]; subst T.
Qed.

Lemma term_shape T t : wf T -> List.In t (tterms T) -> tshape t = tshape T.
Proof.
case: T => [?|???|?|?|??|s l] w; try by (case=> [<-|]).
by move=> /(wf_sum_In w)[].
Qed.

(* X + Y, X not a sketch: a sum standing for T + U *)
Theorem C58_add X Y T U : (if X is ASk _ then false else true) -> stands_for X T -> stands_for Y U ->
  wf T -> wf U -> a_shape X = a_shape Y ->
  exists Z V, [/\ a_add X Y = Ok Z, tadd T U = Ok V, stands_for Z V, wf V & a_shape Z = a_shape X].
Proof.
move=> nX hX hY wT wU S; rewrite (stands_shape hX) in S *; rewrite (stands_shape hY) in S.
have [V eV [wV sV eqV _]] := taddE wT wU S.
have hs := all_stand_cat (stands_terms hX) (stands_terms hY).
have eZ : a_add X Y = a_mk_sum (terms X ++ terms Y).
  by case: X nX {hX hs} => [V'|//|s Xs] _; case: Y {hY} => [V''|st|s' Ys] //=; rewrite cats1.
have : terms X ++ terms Y <> [::] -> True by [].
case ez: (terms X ++ terms Y) hs eZ => [|x l] hs eZ _.
  move: hs; have : tterms T <> [::].
    by case: (T) wT => // s' [|t l']; rewrite /wf wf_sumE.
  by case: (tterms T).
have sx : a_shape x = tshape T.
  case eT: (tterms T ++ tterms U) hs => [|t m] //= [h1 _]; rewrite (stands_shape h1).
  have ht : List.In t (tterms T ++ tterms U) by rewrite eT; left.
  by case: (List.in_app_or _ _ _ ht) => [/(term_shape wT)|/(term_shape wU)] ->.
exists (ASum (a_shape x) (x :: l)), V; split=> //.
  have -> : V = TSum (tshape V) (tterms T ++ tterms U).
    by rewrite {1}eqV sV.
  by split; [rewrite sx sV|exact: hs].
Qed.

(* ---- a sketch on the left of + and - ---- *)
Lemma plain_whole T : plain (whole T) = Some T.
Proof.
elim/tensor_ind': T => // s Xs IH /=.
set go := (X in omap _ X); suff -> : go = Some Xs by [].
rewrite /go {go}; elim: Xs IH => [|x Xs IHl] IH //=; rewrite IH; last by left.
by rewrite [obind _ _]/= IHl // => y hy; apply: IH; right.
Qed.

Lemma mul_whole T c : a_mul (whole T) c = do V <- tmul T c; Ok (whole V).
Proof.
elim/tensor_ind': T => // [cs|cs|s Xs IH].
- by rewrite [LHS]/= /=; case: (rev cs).
- by rewrite [LHS]/= /=; case: cs.
rewrite [whole _]/= a_mul_sum tmul_sum.
have -> : mapM (fun x => a_mul x c) [seq whole i | i <- Xs] = do Ys <- mapM (fun x => tmul x c) Xs; Ok (map (@whole R) Ys).
  elim: Xs IH => [|x Xs IHl] IH //=; rewrite IH; last by left.
  case: (tmul x c) => //= y; rewrite IHl; last by move=> z hz; apply: IH; right.
  by case: (mapM _ _).
case: (mapM _ _) => //= Ys; case: Ys => //= y Ys; congr (Ok (ASum _ _)).
by case: (y).
Qed.

Lemma whole_shape T : a_shape (whole T) = tshape T.
Proof. by case: T. Qed.

Lemma fits_tmul D n T V c : fits D n T -> tmul T c = Ok V -> fits D n V.
Proof.
elim/tensor_ind': T V => [a|s i v|cs|cs|fs k|s Xs IH] V.
- by move=> h [<-]; move: h; rewrite /= /fits1; case: (d_class D).
- move=> h [<-]; move: h; rewrite /= /fits1; case: (d_class D) => //.
  by rewrite size_map.
- rewrite /=; case e: (rev cs) => [|C r] // h [<-]; move: h.
  rewrite /= /fits1; case: (d_class D) => //.
  have -> : cs = rcons (rev r) C by rewrite -[cs]revK e rev_cons.
  by rewrite /pos_ranks rev_cons !all_rcons.
- rewrite /=; case: cs => [|C r] // h [<-]; move: h; rewrite /= /fits1; by case: (d_class D).
- by move=> h [<-]; move: h; rewrite /= /fits1; case: (d_class D).
move=> /fits_sumE h; rewrite tmul_sum.
case eY: (mapM _ Xs) => [Ys|] //=; case: Ys eY => // y Ys eY [<-]; apply/fits_sumE.
elim: Xs (y :: Ys) IH h eY => [|x Xs IHl] Zs IH h /=; first by move=> [<-].
case ex: (tmul x c) => [z|] //=; case eZ: (mapM _ Xs) => [Zs'|] //= [<-] w [<-|hw].
  by apply: (IH x _ z _ ex); [left|apply: h; left].
apply: (IHl Zs') => // [u hu|u hu]; [apply: IH|apply: h]; by right.
Qed.

Lemma sum_pred_tmul (P : tensor R -> bool) T V c : (forall s l, P (TSum s l) = all P l) ->
  (forall T V, not_sum T -> tmul T c = Ok V -> P T -> P V) -> tmul T c = Ok V -> P T -> P V.
Proof.
move=> hP hl; elim/tensor_ind': T V => [a|s i v|cs|cs|fs k|s Xs IH] V; try exact: hl.
rewrite tmul_sum hP; case eY: (mapM _ Xs) => [Ys|] //=; case: Ys eY => // y Ys eY [<-]; rewrite hP.
elim: Xs (y :: Ys) IH eY => [|x Xs IHl] Zs IH /=; first by move=> [<-].
case ex: (tmul x c) => [z|] //=; case eZ: (mapM _ Xs) => [Zs'|] //= [<-] /andP[h1 h2] /=.
rewrite (IH x _ z ex) ?(IHl Zs') //; [by move=> u hu; apply: IH; right|by left].
Qed.

Lemma order_tmul o T V c : tmul T c = Ok V -> order_ok o T -> order_ok o V.
Proof.
have sumr (s : seq nat) (l : seq (tensor R)) : right_ok (TSum s l) = all (@right_ok R) l by rewrite /=; elim: l => //= x l ->.
have sumd (s : seq nat) (l : seq (tensor R)) : all_dense (TSum s l) = all (@all_dense R) l by rewrite /=; elim: l => //= x l ->.
rewrite /order_ok; case: o; apply: sum_pred_tmul => // {T V} T V nT.
  case: T nT => [a|s i v|cs|cs|fs k|s Xs] //= _; try by move=> [<-].
    by case: (rev cs) => // C r [<-].
  by case: cs => // C r [<-].
case: T nT => [a|s i v|cs|cs|fs k|s Xs] //= _; try by move=> [<-].
Qed.

(* st + Y and st - Y, st the sketch of X: the sketches of X + Y and of X - Y with the same DRMs *)
Theorem C58_sketch_add o X Y D E seed lt rt ent : let s := tshape X in let d := size s in
  wf_rep X -> wf_rep Y -> tshape Y = s -> (1 < d)%N -> pair_ok D E s -> strict_ranks D E d ->
  fits D d.-1 X -> fits E d.-1 X -> order_ok o X -> fits D d.-1 Y -> fits E d.-1 Y -> order_ok o Y ->
  exists st st2 Z,
  [/\ stream_sketch X (RTuple (d_rank D)) (RTuple (rev (d_rank E))) seed lt rt (Some D) (Some E) ent = Ok st,
      a_add (ASk st) (whole Y) = Ok (ASk st2), tadd X Y = Ok Z, gs Z (Some D) E Streaming = Ok (sketch_ st2) &
      left_drm st2 = D /\ right_drm st2 = E].
Proof.
move=> s d wX wY sY d1 hp hs fDX fEX oX fDY fEY oY.
have [st [st2 [Z [c [e1 e2 e3 e4 [ec eD eE]]]]]] := @C22_update R to_normal tt_random stream offset right_seed_of lstsq qr_econ
  o X Y D E seed lt rt ent wX wY sY d1 hp hs fDX fEX oX fDY fEY oY.
by exists st, st2, Z; split=> //; rewrite ?ec // /a_add plain_whole e2.
Qed.

Theorem C58_sketch_sub o X Y D E seed lt rt ent : let s := tshape X in let d := size s in
  wf_rep X -> wf_rep Y -> tshape Y = s -> (1 < d)%N -> pair_ok D E s -> strict_ranks D E d ->
  fits D d.-1 X -> fits E d.-1 X -> order_ok o X -> fits D d.-1 Y -> fits E d.-1 Y -> order_ok o Y ->
  exists st st2 Z,
  [/\ stream_sketch X (RTuple (d_rank D)) (RTuple (rev (d_rank E))) seed lt rt (Some D) (Some E) ent = Ok st,
      a_sub (ASk st) (whole Y) = Ok (ASk st2), tsub X Y = Ok Z, gs Z (Some D) E Streaming = Ok (sketch_ st2) &
      left_drm st2 = D /\ right_drm st2 = E].
Proof.
move=> s d wX wY sY d1 hp hs fDX fEX oX fDY fEY oY.
have [V eV [wV sV _]] := tmulE (-1) wY.
have sV' : tshape V = tshape X by rewrite sV.
have [st [st2 [Z [e1 e2 e3 e4 e5]]]] := @C58_sketch_add o X V D E seed lt rt ent wX wV sV' d1 hp hs fDX fEX oX
  (fits_tmul fDY eV) (fits_tmul fEY eV) (order_tmul eV oY).
by exists st, st2, Z; split=> //; rewrite /a_sub /tsub /a_neg /tneg ?mul_whole ?eV.
Qed.

(* a sketch on the right of -: raises *)
Theorem C58_sub_refuted X Y U : stands_for Y U -> wf U -> has_sketch Y -> a_sub X Y = Err UnboundLocalError.
Proof. by move=> h w hs; rewrite /a_sub /a_neg (mul_raises _ h w hs). Qed.

(* without a sketch in it, an object is scaled, negated and divided entry by entry *)
Lemma stands_whole (X : tensor R) : stands_for (whole X) X.
Proof.
elim/tensor_ind': X => //= t Xs IH; split=> //; elim: Xs IH => [|x Xs IHl] IH //=; split.
  by apply: IH; left.
by apply: IHl => y hy; apply: IH; right.
Qed.
Lemma scaling_obs T (c : R) : wf T -> exists Z a b,
  [/\ a_mul (whole T) c = Ok Z, a_shape Z = tshape T, a_to_numpy lstsq (whole T) = Ok a, a_to_numpy lstsq Z = Ok b &
      nshape b = nshape a /\ forall i, inb (nshape a) i -> get b i = c * get a i].
Proof.
move=> w; have [Y [a [b [[eY wY ea eb] [sY sb h]]]]] := obs_mul c w.
exists (whole Y), a, b; split=> //; first by rewrite mul_whole eY.
- by rewrite whole_shape.
- by rewrite (a_to_numpyE (stands_whole T)).
by rewrite (a_to_numpyE (stands_whole Y)).
Qed.
Theorem C58_scaling T (c : R) : wf T -> exists Z V W a b n q,
  [/\ [/\ a_mul (whole T) c = Ok Z, a_neg (whole T) = Ok V & a_div (whole T) c = if c == 0 then Err ZeroDivisionError else Ok W],
      [/\ a_shape Z = tshape T, a_shape V = tshape T & a_shape W = tshape T],
      [/\ a_to_numpy lstsq (whole T) = Ok a, a_to_numpy lstsq Z = Ok b, a_to_numpy lstsq V = Ok n & a_to_numpy lstsq W = Ok q],
      [/\ nshape b = nshape a, nshape n = nshape a & nshape q = nshape a] &
      forall i, inb (nshape a) i ->
        [/\ get b i = c * get a i, get n i = - get a i & get q i = get a i / c]].
Proof.
move=> w; have [Z [a [b [eZ sZ ea eb [sb h]]]]] := scaling_obs c w.
have [V [a' [n [eV sV ea' en [sn h']]]]] := scaling_obs (-1) w.
have [W [a'' [q [eW sW ea'' eq [sq h'']]]]] := scaling_obs (1 / c) w.
move: ea' ea''; rewrite ea => -[?] [?]; subst a' a''.
exists Z, V, W, a, b, n, q; split=> //; first by split=> //; rewrite /a_div eW.
move=> i hi; split; rewrite ?h ?h' ?h'' //; first by rewrite mulN1r.
by rewrite div1r mulrC.
Qed.

(* a sketch plus a sketch (or a sum with a sketch in it): raises, the summand cannot be sketched *)
Theorem C58_add_refuted st Y : has_sketch Y -> a_add (ASk st) Y = Err ValueError.
Proof.
move=> h; rewrite /a_add; suff -> : plain Y = None by [].
elim/any_ind': Y h => // s Xs IH /=; rewrite -/(@some_sketch R) => h.
set go := (X in omap _ X); suff -> : go = None by [].
rewrite /go {go}; elim: Xs IH h => [|x Xs IHl] IH //=; case hx: (has_sketch x) => /= h.
  by rewrite IH //; left.
by rewrite IHl //; [case: (plain x)|move=> y hy; apply: IH; right].
Qed.

(* every sketch that stream_sketch returns stands for the train to_tt() gives, unless the least
   squares routine raises; the train has positive ranks *)
Hypothesis lstsq_ok : lstsq_contract lstsq.
Theorem C58_stands o X D E seed lt rt ent : let s := tshape X in let d := size s in
  wf_rep X -> (1 < d)%N -> pair_ok D E s -> strict_ranks D E d ->
  fits D d.-1 X -> fits E d.-1 X -> order_ok o X ->
  all (fun n => 0 < n)%N s -> all (fun n => 0 < n)%N (d_rank D) -> all (fun n => 0 < n)%N (d_rank E) ->
  exists2 st, stream_sketch X (RTuple (d_rank D)) (RTuple (rev (d_rank E))) seed lt rt (Some D) (Some E) ent = Ok st &
    or_linalg (stt_to_tt lstsq st) (fun cs =>
      [/\ stands_for (ASk st) (TT cs), wf (TT cs), pos_tt cs & tshape (TT cs) = s]).
Proof.
move=> s d wX d1 hp hs fD fE oX hs0 hD hE.
have [st es [lD rE hsk hgs]] := stream_givenE to_normal tt_random stream offset right_seed_of lstsq qr_econ seed lt rt ent wX d1 hp fD fE oX hs.
exists st => //.
have := @C27_to_tt R to_normal lstsq qr_econ lstsq_ok o X D E (sketch_ st) Auto wX d1 hp fD fE oX hs0 hD hE hgs.
rewrite -/(stt_to_tt lstsq st); case e: (stt_to_tt lstsq st) => [cs|] //= [wc sc rc].
have d0 : (0 < size s)%N by apply: ltn_trans d1.
have [sh _ _] := mk_ranks hsk (gs_mk hgs) d0.
split=> //; first by exists cs => //; split=> //; rewrite sc /stt_shape sh.
rewrite (pos_ttE wc) [tshape _]/= sc rc hs0 /=; case: ifP => _ //; by rewrite all_rev.
Qed.

End Sums.

Print Assumptions C58_to_numpy.
Print Assumptions C58_dot.
Print Assumptions C58_norm.
Print Assumptions C58_error.
Print Assumptions C58_scaling_refuted.
Print Assumptions C58_add.
Print Assumptions C58_sketch_add.
Print Assumptions C58_sketch_sub.
Print Assumptions C58_sub_refuted.
Print Assumptions C58_scaling.
Print Assumptions C58_add_refuted.
Print Assumptions C58_stands.

(* Non-vacuity: over every real closed field, with the least-squares routine of LinExist.v, the
   sketch of any non-empty n1 x n2 array (n1 < n2) with identity DRMs stands for a well-formed
   train with positive ranks, and so does a sum of it and the array. *)
From Verif Require Import LinExist NoLinSpec NoLin Prop_LinEx.
Section Ex.
Variable R : rcfType.
Variables (a : nd R) (n1 n2 : nat).
Hypotheses (ha : is_mat a n1 n2) (p1 : (0 < n1)%N) (p12 : (n1 < n2)%N).
Variable tn : N -> R.
Variable tr : seq nat -> seq nat -> N -> seq (nd R).
Variable sm : N -> nat -> R.
Variable off : N -> nat -> N.
Variable rs : N -> nat -> N.
Example C58_nonvacuous : exists st cs V,
  [/\ stands_for (@lstsq0 R) (ASk st) (TT cs), wf (TT cs) && pos_tt cs, tshape (TT cs) = [:: n1; n2],
      a_add tn tr sm off rs (@lstsq0 R) (@qr0 R) (ALeaf (Dense a)) (ASk st) = Ok V &
      stands_for (@lstsq0 R) V (TSum [:: n1; n2] [:: Dense a; TT cs]) /\ wf (TSum [:: n1; n2] [:: Dense a; TT cs])].
Proof.
have p2 : (0 < n2)%N by apply: ltn_trans p12.
have [w st hp [fL fR] oX] := id_args ha; have d1 : (1 < size (tshape (Dense a)))%N by rewrite st.
have sz : (size (tshape (Dense a))).-1 = 1%N by rewrite st.
have [|||||||s es] := @C58_stands R tn tr sm off rs (@lstsq0 R) (@qr0 R) (@lstsq0P R) true (Dense a) (idL R n1 n2) (idR R n1 n2)
   None None None (fun _ => N0) (wf_gen_rep w) d1 hp; rewrite ?sz ?st //= ?p1 ?p2 //.
  by left; case=> [|//] _; rewrite /drm_cols /=.
have nl : nolin (stt_to_tt (@lstsq0 R) s).
  rewrite /stt_to_tt; apply: nl_assemble => A B; rewrite /nolin /lstsq0.
  by case: (nshape A) => [|m [|n [|? ?]]] //; case: (nshape B) => [|? [|k [|? ?]]].
case e: (stt_to_tt _ s) nl => [cs|[]] // nl [h wc pc sc].
exists s, cs, (ASum [:: n1; n2] [:: ALeaf (Dense a); ASk s]).
have [_ sa] := ha.
have {}h : stands_for (@lstsq0 R) (ASk s) (TT cs) by case: h => c [<-] [h _]; exists cs.
split=> //; [by apply/andP|by rewrite /= sa|split; first by split].
rewrite /wf wf_sumE /=; apply/and3P; split; last by [].
  by rewrite sa eqxx andbT; move: w.
by apply/andP; split; [move: wc|apply/eqP].
Qed.
End Ex.
