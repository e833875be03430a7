(* The generators of the left and right contractions, for every class and format. *)
From Coq Require Import String Ascii NArith.
From mathcomp Require Import all_ssreflect all_algebra.
From mathcomp Require Import zify.
From Verif Require Import Py Nd NdThy Ein Utils Tensor Hash Sketch Spec ChainThy TensorThy TensorThy2 GatherThy MatThy SkSpec SkThy1 SkThy2 SkThy3 SkThy4 SkThy5 SkThy6.
Set Implicit Arguments. Unset Strict Implicit. Unset Printing Implicit Defensive.
Import GRing.Theory.
Local Open Scope ring_scope.

Section Gen.
Variable R : comRingType.
Variable to_normal : N -> R.
Notation arr := (nd R).
Notation tensor := (tensor R).
Notation drm := (drm R).
Notation skt := (skt R).
Notation C0 := (C0 R).
Implicit Types (X Y : tensor) (cs ds fs : seq arr) (n mu : nat) (D : drm).

(* the condition on the tensor in the DRM's own mode order *)
Definition fitsY D n X : Prop :=
  match d_class D, X with
  | TensorTrainDRM, (Sparse _ _ _ | TT _ | CP _) => True
  | TensorTrainDRM, (Dense _ | Tucker _ _) => unsliced D n
  | DenseGaussianDRM, (Sparse _ _ _ | Dense _) => True
  | DenseGaussianDRM, TT cs => pos_ranks cs
  | SparseGaussianDRM, Sparse _ _ _ => True
  | SparseSignDRM, Sparse _ inds vals => forall k, (k < size vals)%N ->
      good_coord D (drm_dims D) (column inds k) n
  | _, _ => False
  end.

Lemma leaf_sketchE nr D n X : wf_gen nr X -> (n < size (tshape X))%N -> drm_dims D = tshape X ->
  drm_valid D n -> fitsY D n X ->
  exists2 l, leaf_sketch to_normal D X n = Ok l & size l = n /\
  forall mu, (mu < n)%N -> lval X mu.+1 (drm_cols D mu) (drm_entry to_normal D mu) (Some (nth C0 l mu)).
Proof.
rewrite /drm_valid /fitsY /leaf_sketch /drm_entry => w nl ed; rewrite ed.
case: (d_class D) => hv.
- case: X w nl ed hv => [a|s inds vals|cs|cs|fs core|//] w nl ed hv hf; rewrite /= in nl ed hv.
  + exact: ttdrm_denseE w nl hv hf.
  + exact: ttdrm_sparseE w nl hv.
  + by apply: ttdrm_ttE w _ hv; rewrite size_map in nl.
  + by apply: ttdrm_cpE w _ hv; rewrite size_map in nl.
  + by apply: ttdrm_tuckerE w _ hv hf; rewrite size_map in nl.
- case: X w nl ed hv => [a|s inds vals|cs|//|//|//] w nl ed hv hf; rewrite /= in nl ed hv.
  + by eexists; first by []; exact: dense_denseE w nl hv.
  + exact: dense_sparseE w nl hv.
  + apply: dense_ttE w _ _ hv; last by rewrite size_map in nl.
    by apply: sub_all hf => C /andP[].
- case: X w nl ed hv => [//|s inds vals|//|//|//|//] w nl ed hv hf; rewrite /= in nl ed hv.
  exact: gauss_sparseE w nl hv.
- case: X w nl ed hv => [//|s inds vals|//|//|//|//] w nl ed hv hf; rewrite /= in nl ed hv.
  exact: sign_sparseE w nl hv hf.
Qed.

(* ---- transposition ---- *)
(* the right functional obtained from a left functional of the transposed tensor *)
Definition rg X m (f : seq nat -> nat -> R) (j : seq nat) (c : nat) : R :=
  let s := drop (size (tshape X) - m) (tshape X) in
  match X with
  | Dense _ => if (m <= 1)%N then f (rev j) c else f (unravel (rev s) (ravel s j)) c
  | _ => f (rev j) c
  end.

Lemma drop1 (T : Type) (x : T) (s : seq T) : (0 < size s)%N -> exists y, drop (size s - 1) s = [:: y].
Proof.
case/lastP: s => [|s y] // _; exists y.
by rewrite size_rcons subn1 /= -cats1 drop_size_cat.
Qed.

Lemma nbl_cp_rev cs : wf_cp cs -> dim (head C0 (rev cs)) 1 = dim (head C0 cs) 1.
Proof.
case/andP=> Hn H; have -> : head C0 (rev cs) = last C0 cs.
  by case/lastP: cs {Hn H} => [|cs C] //; rewrite rev_rcons last_rcons.
move: H; case/lastP: cs Hn => [|cs C] // _.
rewrite last_rcons all_rcons => /andP[/andP[_ /eqP E] _].
by rewrite {1}/dim E.
Qed.

Lemma lval_rval nr X Y m r f A : leaf X -> wf_gen nr X -> tT X = Ok Y ->
  (0 < m < size (tshape X))%N -> (if X is Tucker _ _ then (m <= 1)%N else true) ->
  lval Y m r f (Some A) -> rval X (size (tshape X) - m) r (rg X m f) (Some A).
Proof.
move=> lf w eT /andP[m0 md] hm.
have [Y' eT' [_ sY _]] := tTE w; rewrite eT in eT'; case: eT' => <- {Y'} in sY *.
have [d ed] : exists d, size (tshape X) = d by exists (size (tshape X)).
rewrite ed in md *.
have tk (T : Type) (l : seq T) : size l = d -> take m (rev l) = rev (drop (d - m) l).
  by move=> h; rewrite take_rev h.
move=> [hA hv].
have : smat Y A (nbl Y m) r by case/andP: hA.
have eS : take m (tshape Y) = rev (drop (d - m) (tshape X)) by rewrite sY tk.
have dm : (d - m < d)%N by lia.
suff H : cfirst Y = cfirst X /\ nbl Y m = nbr X (d - m)%N /\
  (forall q c, (q < nbr X (d - m))%N -> (c < r)%N ->
     sum_idx (rev (drop (d - m) (tshape X))) (fun i => lfac Y m q i * f i c) =
     sum_idx (drop (d - m) (tshape X)) (fun j => rfac X (d - m) q j * rg X m f j c)).
  case: H => e1 [e2 e3]; rewrite /smat e1 e2 => hs; split.
    by rewrite /rmat ed dm /= /smat.
  move=> q c hq hc; rewrite -e3 // -eS -hv ?e2 //.
  by rewrite /= /gv e1.
case: X lf w eT hm ed eS {sY} => [a|s inds vals|cs|cs|fs core|//] _ w eT hm ed eS;
  rewrite /= in ed eS eT *.
- move: eT; rewrite /dense_T transpose_rev => -[eY]; rewrite -eY /=; split=> //; split.
    by rewrite tk // prods_rev.
  move=> q c hq hc; rewrite tk // /rg /= ed.
  have hq' : (q < prods (rev (drop (d - m) (nshape a))))%N by rewrite prods_rev.
  transitivity (f (unravel (rev (drop (d - m) (nshape a))) q) c).
    rewrite -(@sum_delta_l _ _ _ (fun i => f i c) (inb_unravel hq')).
    apply: eq_sum_idx => i hi; congr (_%:R * _); congr nat_of_bool.
    by apply/eqP/eqP => <-; rewrite ?ravelK ?unravelK.
  have -> : sum_idx (drop (d - m) (nshape a)) (fun j => (ravel (drop (d - m) (nshape a)) j == q)%:R *
     (if (m <= 1)%N then f (rev j) c else f (unravel (rev (drop (d - m) (nshape a))) (ravel (drop (d - m) (nshape a)) j)) c)) =
    sum_idx (drop (d - m) (nshape a)) (fun j => (unravel (drop (d - m) (nshape a)) q == j)%:R *
      f (unravel (rev (drop (d - m) (nshape a))) (ravel (drop (d - m) (nshape a)) j)) c).
    apply: eq_sum_idx => j hj; congr (_%:R * _); first congr nat_of_bool.
      by apply/eqP/eqP => <-; rewrite ?ravelK ?unravelK.
    case: leqP => // m1; congr f; have em : m = 1%N by lia.
    have [|y ey] := @drop1 _ 0%N (nshape a); first by rewrite ed; lia.
    rewrite em in hj *; rewrite ed in ey; rewrite ey in hj *.
    by case/inb1P: hj => k -> hk; rewrite /= !muln1 addn0 divn1.
  by rewrite (@sum_delta_l _ _ _ (fun j => f (unravel _ (ravel _ j)) c)) ?inb_unravel // ravelK.
- case: eT => eY; rewrite -eY /=; split=> //; split=> // q c hq hc.
  rewrite sum_idx_rev; apply: eq_sum_idx => j hj; congr (_%:R * _); congr nat_of_bool.
  case/andP: w => /and3P[/eqP si _ _] _.
  rewrite column_rev tk; last by rewrite size_map si ed.
  by rewrite (can_eq revK).
- case/andP: w => wn L; move: eT; rewrite (tt_TE L) => -[eY]; rewrite -eY /=; split=> //.
  have sc : size cs = d by rewrite -ed size_map.
  have dl : (d - m <= size cs)%N by rewrite sc; lia.
  have [r' [_ L2 er]] := links_split L dl.
  have tY : take m (rev (map (@flipc R) cs)) = rev (map (@flipc R) (drop (d - m) cs)).
    by rewrite tk ?size_map // map_drop.
  have [|rY [L3 _ er3]] := @links_split _ _ _ _ m (links_flip L); first by rewrite size_rev size_map sc ltnW.
  have e : rY = r' by move: L3; rewrite tY => L3; exact: links_inj L3 (links_flip L2).
  rewrite -er3 -er; split=> // q c hq hc; rewrite sum_idx_rev; apply: eq_sum_idx => j hj.
  rewrite tY (chain_flip L2) //; first by rewrite map_drop.
- case: eT => eY; rewrite -eY /=; split=> //; split.
    exact: nbl_cp_rev w.
  move=> q c hq hc; rewrite sum_idx_rev; apply: eq_sum_idx => j hj; congr (_ * _).
  have sc : size cs = d by rewrite -ed size_map.
  rewrite tk // /cprod zip_rev2 ?big_revc //.
  by rewrite (inb_size hj) !size_drop size_map.
- move: eT; case/and3P: w => wc /eqP sc wf.
  have -> : size fs = ndim core by rewrite /ndim sc size_map.
  rewrite transpose_rev => -[eY]; rewrite -eY /=; split=> //.
  have em : m = 1%N by lia.
  have sf : size fs = d by rewrite -ed size_map.
  have [|U eU] := @drop1 _ C0 fs; first by rewrite sf; lia.
  rewrite sf in eU.
  have tF : take m (rev fs) = [:: U] by rewrite tk // em eU.
  have tR : take m (tranks (rev fs)) = [:: dim U 0] by rewrite /tranks -map_take tF.
  have dR : drop (d - m) (tranks fs) = [:: dim U 0] by rewrite /tranks -map_drop em eU.
  have dS : drop (d - m) [seq dim U 1 | U <- fs] = [:: dim U 1] by rewrite -map_drop em eU.
  rewrite tR dR; split=> // q c hq hc; rewrite sum_idx_rev; apply: eq_sum_idx => j; rewrite dS => /inb1P[k -> hk].
  by rewrite tF em eU.
Qed.

Lemma rval_ext X n r g g' A : (forall j c, inb (drop n (tshape X)) j -> g j c = g' j c) ->
  rval X n r g A -> rval X n r g' A.
Proof.
move=> H [h1 h2]; split=> // q c hq hc; rewrite h2 //.
by apply: eq_sum_idx => j hj; rewrite H.
Qed.

Lemma fits1_method D n X : fits1 D n X -> has_method D X.
Proof. by rewrite /fits1 /has_method; case: (d_class D); case: X. Qed.

Lemma fits1_leaf D n X : fits1 D n X -> leaf X.
Proof. by rewrite /fits1; case: (d_class D); case: X. Qed.

Lemma wrapped_leftE nr D n X : wf_gen nr X -> (n < size (tshape X))%N -> d_shape D = tshape X ->
  d_transpose D = false -> drm_valid D n -> fits1 D n X ->
  exists2 l, wrapped_sketch to_normal D X n = Ok l & size l = n /\
  forall mu, (mu < n)%N -> lval X mu.+1 (drm_cols D mu) (drm_entry to_normal D mu) (Some (nth C0 l mu)).
Proof.
move=> w nl es et hv hf; rewrite /wrapped_sketch (fits1_method hf) /= es eqxx /= et /=.
have [|||l -> hl] := @leaf_sketchE nr D n X w nl; last by exists l.
- by rewrite /drm_dims et.
- by [].
by move: hf; rewrite /fits1 /fitsY et; case: (d_class D); case: X {w nl es}.
Qed.

Lemma pos_ranks_flip cs : pos_ranks cs -> pos_ranks (rev (map (@flipc R) cs)).
Proof.
rewrite /pos_ranks all_rev all_map; apply: sub_all => C /=.
by rewrite /dim /flipc /= andbC.
Qed.

Lemma fits_T nr D n X Y : wf_gen nr X -> d_transpose D -> tT X = Ok Y -> fits1 D n X -> fitsY D n Y.
Proof.
rewrite /fits1 /fitsY => w et eT; rewrite et; case: (d_class D); case: X w eT => //.
- by move=> a w; rewrite /= /dense_T transpose_rev => -[<-].
- by move=> s inds vals w /= [<-].
- by move=> cs /andP[_ L]; rewrite /= (tt_TE L) => -[<-].
- by move=> cs _ /= [<-].
- move=> fs core /and3P[_ /eqP sc _]; rewrite /= (_ : size fs = ndim core); last by rewrite /ndim sc size_map.
  by rewrite transpose_rev => -[<-].
- by move=> a w; rewrite /= /dense_T transpose_rev => -[<-].
- by move=> s inds vals w /= [<-].
- by move=> cs /andP[_ L]; rewrite /= (tt_TE L) => -[<-]; apply: pos_ranks_flip.
- by move=> s inds vals w /= [<-].
- by move=> s inds vals w /= [<-] H k hk; rewrite column_rev; apply: H.
Qed.

Definition tucker2 X : bool := if X is Tucker fs _ then (size fs <= 2)%N else true.

Lemma wrapped_rightE nr D X (g : nat -> seq nat -> nat -> R) : let d := size (tshape X) in
  wf_gen nr X -> (0 < d)%N -> d_shape D = tshape X ->
  d_transpose D -> drm_valid D d.-1 -> fits1 D d.-1 X -> tucker2 X ->
  (forall mu j c, (mu < d.-1)%N -> inb (drop mu.+1 (tshape X)) j ->
     rg X (d - mu.+1) (drm_entry to_normal D (d - mu.+2)) j c = g mu j c) ->
  exists2 l, wrapped_sketch to_normal D X d.-1 = Ok l & size l = d.-1 /\
  forall mu, (mu < d.-1)%N -> rval X mu.+1 (drm_cols D (d - mu.+2)) (g mu) (Some (nth C0 l mu)).
Proof.
move=> d w d0 es et hv hf ht hg; rewrite /wrapped_sketch (fits1_method hf) /= es eqxx /= et /=.
have [Y eT [wY sY _]] := tTE w; rewrite eT /=.
have [||||l -> [sl hl]] := @leaf_sketchE nr D d.-1 Y wY.
- by rewrite sY size_rev -/d; lia.
- by rewrite /drm_dims et es sY.
- by [].
- exact: fits_T w et eT hf.
exists (rev l); rewrite ?size_rev //; split=> // mu hm.
rewrite nth_rev ?sl //; have -> : (d.-1 - mu.+1 = d - mu.+2)%N by lia.
apply: (rval_ext (g := rg X (d - mu.+1) (drm_entry to_normal D (d - mu.+2)))); first by move=> j c; apply: hg.
have := @lval_rval nr X Y (d - mu.+1) (drm_cols D (d - mu.+2)) (drm_entry to_normal D (d - mu.+2)) (nth C0 l (d - mu.+2)).
rewrite -/d; have -> : (d - (d - mu.+1) = mu.+1)%N by lia.
apply=> //; first exact: fits1_leaf hf.
- by lia.
- have e : size (tshape X) = d by []; move: e ht hm; clear; clearbody d.
  by case: X => //= fs _; rewrite size_map => <- ht hm; lia.
- have H := hl (d - mu.+2)%N; have e : ((d - mu.+2).+1 = d - mu.+1)%N by lia.
  by rewrite e in H; apply: H; clear -hm; lia.
Qed.

(* ---- sums ---- *)
Lemma fits_sumE D n s Xs : fits D n (TSum s Xs) <-> forall x, List.In x Xs -> fits D n x.
Proof.
split; first by elim: Xs => //= x Xs IH [hx hXs] y [<-|/(IH hXs)].
elim: Xs => [|x Xs IH] H //=; split; first by apply: H; left.
by apply: IH => y hy; apply: H; right.
Qed.
Lemma fits_leaf D n X : leaf X -> fits D n X -> fits1 D n X.
Proof. by case: X. Qed.

Definition mapup D n := fix go (l : seq tensor) : res (seq (seq skt)) := match l with
                | [::] => Ok [::]
                | x :: l' => do y <- sketch_upto to_normal D n x; do ys <- go l'; Ok (y :: ys)
                end.
Lemma sketch_upto_sum D n s Xs : sketch_upto to_normal D n (TSum s Xs) =
  do Ls <- mapup D n Xs;
      if all (fun L => (n <= size L)%N) Ls
      then Ok [seq Node [seq nth (Leaf (Nd [::] [::])) L mu | L <- Ls] | mu <- iota 0 n]
      else Err RuntimeError.
Proof. by []. Qed.
Lemma sketch_upto_leaf D n X : leaf X ->
  sketch_upto to_normal D n X = do l <- wrapped_sketch to_normal D X n; Ok (map (@Leaf R) l).
Proof. by case: X. Qed.

Notation L0 := (Leaf (Nd [::] [::])).
Lemma upto_gen (P : tensor -> Prop) (Q : tensor -> nat -> skt -> Prop) D n X :
  (forall s Xs, P (TSum s Xs) -> forall x, List.In x Xs -> P x) ->
  (forall x, leaf x -> P x -> exists2 l, wrapped_sketch to_normal D x n = Ok l & size l = n /\
     forall mu, (mu < n)%N -> Q x mu (Leaf (nth C0 l mu))) ->
  (forall s Xs mu l, all2P (fun x y => Q x mu y) Xs l -> Q (TSum s Xs) mu (Node l)) ->
  P X ->
  exists2 l, sketch_upto to_normal D n X = Ok l & size l = n /\
  forall mu, (mu < n)%N -> Q X mu (nth L0 l mu).
Proof.
move=> hP hL hS; elim/tensor_ind': X => [a|s i v|cs|cs|fs c|s Xs IH] pX;
  try (rewrite sketch_upto_leaf //; have [|l -> [sl hl]] := hL _ _ pX; [by []|]; exists (map (@Leaf R) l); [by []|
   by rewrite size_map; split=> // mu hm; rewrite (nth_map C0) ?sl //; apply: hl]).
rewrite sketch_upto_sum.
have pXs := hP _ _ pX.
suff [Ls -> [h1 h2]] : exists2 Ls, mapup D n Xs = Ok Ls & all (fun L => size L == n) Ls /\
   forall mu, (mu < n)%N -> all2P (fun x y => Q x mu y) Xs [seq nth L0 L mu | L <- Ls].
  rewrite /= (_ : all _ _ = true); last by apply: sub_all h1 => L /eqP->.
  eexists; first by []; rewrite size_map size_iota; split=> // mu hm.
  by rewrite (nth_map 0%N) ?size_iota // nth_iota // add0n; apply: hS; apply: h2.
elim: Xs IH pXs {pX} => [|x Xs IHl] IH pXs; first by exists [::].
have [||l el [sl hl]] := IH x; [by left | by apply: pXs; left |].
have [||Ls eLs [h1 h2]] := IHl; [by move=> y hy; apply: IH; right | by move=> y hy; apply: pXs; right |].
exists (l :: Ls); first by rewrite /= el /= eLs.
by split=> [|mu hm] /=; [rewrite sl eqxx | split; [apply: hl | apply: h2]].
Qed.

Lemma all2P_map (A B B' : Type) (P : A -> B' -> Prop) (h : B -> B') l m :
  all2P (fun x y => P x (h y)) l m -> all2P P l (map h m).
Proof. by elim: l m => [|x l IH] [|y m] //= [h1 h2]; split=> //; apply: IH. Qed.

Lemma sketch_leftE nr D n X : wf_gen nr X -> (n < size (tshape X))%N -> d_shape D = tshape X ->
  d_transpose D = false -> drm_valid D n -> fits D n X ->
  exists2 l, sketch_upto to_normal D n X = Ok l & size l = n /\
  forall mu, (mu < n)%N -> lsk mu.+1 (drm_cols D mu) (fun _ => left_fun to_normal D mu) X (Some (nth L0 l mu)).
Proof.
move=> w nl es et hv hf.
apply: (@upto_gen (fun X => [/\ wf_gen nr X, (n < size (tshape X))%N, d_shape D = tshape X & fits D n X])
  (fun X mu S => lsk mu.+1 (drm_cols D mu) (fun _ => left_fun to_normal D mu) X (Some S))).
- move=> s Xs [wX nX eX fX] x hx; have fx := proj1 (fits_sumE D n s Xs) fX x hx.
  rewrite wf_sumE in wX; have /andP[wx /eqP sx] := in_mem (proj2 (andP wX)) hx.
  by rewrite sx.
- move=> x lx [wx nx ex fx]; have [l -> [sl hl]] := wrapped_leftE wx nx ex et hv (fits_leaf lx fx).
  by exists l => //; split=> // mu hm; have := hl mu hm; case: (x) lx.
- move=> s Xs mu l H; split=> //; exact: all2P_map H.
- by split.
Qed.

(* the hypotheses under which all leaves use the same right functional *)
Fixpoint leafprop (P : tensor -> Prop) X : Prop :=
  match X with
  | TSum _ Xs => (fix go l := if l is x :: l' then leafprop P x /\ go l' else True) Xs
  | _ => P X
  end.
Lemma leafprop_sumE P s Xs : leafprop P (TSum s Xs) <-> forall x, List.In x Xs -> leafprop P x.
Proof.
split; first by elim: Xs => //= x Xs IH [hx hXs] y [<-|/(IH hXs)].
elim: Xs => [|x Xs IH] H //=; split; first by apply: H; left.
by apply: IH => y hy; apply: H; right.
Qed.

Definition right_agree D (g : nat -> seq nat -> nat -> R) x : Prop := tucker2 x /\
  let d := size (tshape x) in
  forall mu j c, (mu < d.-1)%N -> inb (drop mu.+1 (tshape x)) j ->
     rg x (d - mu.+1) (drm_entry to_normal D (d - mu.+2)) j c = g mu j c.

Lemma sketch_rightE nr D X g : let d := size (tshape X) in
  wf_gen nr X -> (0 < d)%N -> d_shape D = tshape X ->
  d_transpose D -> drm_valid D d.-1 -> fits D d.-1 X -> leafprop (right_agree D g) X ->
  exists2 l, sketch_upto to_normal D d.-1 X = Ok l & size l = d.-1 /\
  forall mu, (mu < d.-1)%N -> rsk mu.+1 (drm_cols D (d - mu.+2)) (fun _ => g mu) X (Some (nth L0 l mu)).
Proof.
move=> d w d0 es et hv hf hg.
apply: (@upto_gen (fun X => [/\ wf_gen nr X, size (tshape X) = d, d_shape D = tshape X, fits D d.-1 X &
    leafprop (right_agree D g) X])
  (fun X mu S => rsk mu.+1 (drm_cols D (d - mu.+2)) (fun _ => g mu) X (Some S))).
- move=> s Xs [wX nX eX fX gX] x hx; have fx := proj1 (fits_sumE D _ s Xs) fX x hx.
  have gx := proj1 (leafprop_sumE _ s Xs) gX x hx.
  rewrite wf_sumE in wX; have /andP[wx /eqP sx] := in_mem (proj2 (andP wX)) hx.
  by rewrite sx.
- move=> x lx [wx nx ex fx gx]; have [h1 h2] : right_agree D g x by case: (x) lx gx.
  have := @wrapped_rightE nr D x g wx; rewrite nx => H.
  have h3 := h2; rewrite /= nx in h3.
  have [l -> [sl hl]] := H d0 ex et hv (fits_leaf lx fx) h1 h3.
  by exists l => //; split=> // mu hm; have := hl mu hm; case: (x) lx.
- move=> s Xs mu l H; split=> //; exact: all2P_map H.
- by split.
Qed.

Lemma right_ok_agree D X : right_ok X -> forall d, wf_gen false X -> size (tshape X) = d ->
  leafprop (right_agree D (right_fun to_normal D d)) X.
Proof.
elim/tensor_ind': X => [a|s i v|cs|cs|fs c|s Xs IH] hr d w sd.
- split=> // d' mu j c hm hj; rewrite /d' /= in hm *; rewrite /right_fun -sd /=.
  have -> : (size (nshape a) - mu.+1 <= 1)%N by rewrite leq_subLR; apply: (leq_trans hr); rewrite addn1.
  by [].
- by split=> //; rewrite sd.
- by split=> //; rewrite sd.
- by split=> //; rewrite sd.
- by split=> //; rewrite sd.
apply/leafprop_sumE => x hx; rewrite wf_sumE in w; have /andP[wx /eqP sx] := in_mem (proj2 (andP w)) hx.
apply: IH => //; last by rewrite sx.
by move: hr hx; clear; elim: Xs => //= y Xs IHl /andP[hy hXs] [<-|/(IHl hXs)].
Qed.

Lemma all_dense_agree D X : all_dense X -> forall sh, wf_gen false X -> tshape X = sh ->
  leafprop (right_agree D (right_fun_dense to_normal D sh)) X.
Proof.
elim/tensor_ind': X => [a|s i v|cs|cs|fs c|s Xs IH] // hr sh w sd.
- split=> // d' mu j c; rewrite /d' /right_fun_dense -sd /rg /= => hm hj {d' sd}.
  have [n en] : exists n, size (nshape a) = n by eexists.
  rewrite en in hm *.
  have e : (n - (n - mu.+1))%N = mu.+1 by clear -hm; lia.
  rewrite e; case: leqP => // m1; congr drm_entry.
  have e3 : mu.+1 = (size (nshape a) - 1)%N by rewrite en; clear -hm m1; lia.
  have [|y ey] := @drop1 _ 0%N (nshape a); first by rewrite en; clear -hm; lia.
  by rewrite e3 ey in hj *; case/inb1P: hj => k -> hk; rewrite /= !muln1 addn0 divn1.
apply/leafprop_sumE => x hx; rewrite wf_sumE in w; have /andP[wx /eqP sx] := in_mem (proj2 (andP w)) hx.
apply: IH => //; last by rewrite sx.
by move: hr hx; clear; elim: Xs => //= y Xs IHl /andP[hy hXs] [<-|/(IHl hXs)].
Qed.
End Gen.
