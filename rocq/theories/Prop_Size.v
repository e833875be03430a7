(* C57: the [size], [nnz] and [num_summands] properties, and get_drm_capabilities. *)
From Coq Require Import String Ascii NArith.
From mathcomp Require Import all_ssreflect all_algebra.
From mathcomp.zify Require Import zify.
From Verif Require Import Py Nd NdThy Utils Tensor TensorNum Spec Sketch Size SizeSpec LinSpec NoLin Prop_Dot TrimThy SweepThy RoundThy RoundThy2 TensorThy2 TrimThy SkSpec SkThy2 SkThy7 SkThy8 SkThy9 SkThy10 SkThy11 SkThy12 SkThy13 SkThy14 SkThy15 Ex SkEx Prop_Sketch Prop_Sketch2 Prop_Sketch3 Prop_Tensor.
Set Implicit Arguments. Unset Strict Implicit. Unset Printing Implicit Defensive.
Import GRing.Theory.

Section Thy.
Variable R : comRingType.
Implicit Types (X Y : tensor R) (C : nd R).

Lemma asizeE C : nwf C -> asize C = size (ndata C). Proof. by move/eqP. Qed.
Lemma links_nwf a cs b : links a cs b -> all (@nwf R) cs.
Proof. by elim: cs a => [|C cs IH] a //= /and3P[-> _ /IH]. Qed.
Lemma sizes_all (cs : seq (nd R)) : all (@nwf R) cs -> [seq asize C | C <- cs] = [seq size (ndata C) | C <- cs].
Proof. by elim: cs => [|C cs IH] //= /andP[/asizeE-> /IH->]. Qed.
Lemma sumn_const (s : seq (seq nat)) N : all (fun r => size r == N) s -> sumn [seq size r | r <- s] = (size s * N)%N.
Proof. by elim: s => [|r s IH] //= /andP[/eqP-> /IH->]; rewrite mulSn. Qed.

(* every tensor: the value of .size *)
Lemma tsizeP X : wf_rep X -> tsize X =
  match X with
  | CP _ => Ok (Method (stored X))
  | TSum _ _ => if has_cp X then Err TypeError else Ok (Num (stored X))
  | _ => Ok (Num (stored X))
  end.
Proof.
elim/tensor_ind': X => [a|s i v|cs|cs|fs c|s Xs IH] W /=.
- by rewrite asizeE.
- move: W; rewrite /wf_rep /= => /andP[/and3P[/eqP sz al _] _].
  by rewrite (sumn_const al) sz; congr (Ok (Num _)); lia.
- by rewrite sizes_all //; case/andP: W => _ /links_nwf.
- by rewrite sizes_all //; case/andP: W => _; apply: sub_all => C /andP[].
- case/and3P: W => w1 _ w2; rewrite asizeE // sizes_all //.
  by apply: sub_all w2 => C /andP[].
move: W; rewrite /wf_rep /= => /andP[_ W].
suff H n : (fix go (acc : nat) l := match l with
        | [::] => Ok (Num acc)
        | x :: l' => do v <- tsize x;
                     match v with Num m => go (acc + m) l' | Method _ => Err TypeError end
        end) n Xs =
   (if (fix go (l : seq (tensor R)) := if l is x :: l' then has_cp x || go l' else false) Xs then Err TypeError
    else Ok (Num (n + (fix go (l : seq (tensor R)) := if l is x :: l' then stored x + go l' else 0) Xs))).
  by rewrite H add0n.
elim: Xs IH W n => [|x Xs IHl] IH /=.
  by move=> _ n; rewrite addn0.
case/and3P=> wx sx W n.
rewrite (IH x) //; last by left.
have {}IHl := IHl (fun Y h => IH Y (or_intror h)) W.
case: (x) => [a|s1 i v|cs|cs|fs c|s1 Ys] //=; rewrite ?IHl ?addnA //.
by case: ifP => // _ /=; rewrite IHl; case: ifP.
Qed.
End Thy.

(* [x.size] is the number of stored values (and coordinates), for every format and nesting
   without CP tensors; repeated sparse coordinates are allowed. *)
Theorem C57_size (R : comRingType) (X : tensor R) : wf_rep X -> ~~ has_cp X -> tsize X = Ok (Num (stored X)).
Proof. by move=> W N; rewrite tsizeP //; case: (X) N => //= s Xs /negbTE->. Qed.
Print Assumptions C57_size.

(* For a CP tensor [x.size] is not a number but a method (it has no @property), and therefore
   the size of any sum with a CP tensor in it, however deep, raises TypeError. *)
Theorem C57_cp_size_refuted (R : comRingType) (cs : seq (nd R)) : wf_rep (CP cs) ->
  tsize (CP cs) = Ok (Method (stored (CP cs))) /\ (forall n, tsize (CP cs) <> Ok (Num n)).
Proof. by move=> W; have E := tsizeP W; split=> [//|n]; rewrite E. Qed.
Theorem C57_sum_size_refuted (R : comRingType) (s : seq nat) (Xs : seq (tensor R)) :
  wf_rep (TSum s Xs) -> has_cp (TSum s Xs) -> tsize (TSum s Xs) = Err TypeError.
Proof. by move=> W H; rewrite (tsizeP W) H. Qed.
Print Assumptions C57_cp_size_refuted.
Print Assumptions C57_sum_size_refuted.

(* In terms of shape and rank. *)
Theorem C57_train_size (R : comRingType) (cs : seq (nd R)) : wf_tt cs ->
  tsize (TT cs) = Ok (Num (train_size (tshape (TT cs)) (tt_rank cs))).
Proof.
case/andP=> _ L; rewrite /=; congr (Ok (Num _)); rewrite /train_size size_map.
suff H (a : nat) (l : seq (nd R)) : links a l 1 -> sumn [seq asize C | C <- l] =
   \sum_(0 <= k < size l) nth 0 (a :: tt_rank l) k * nth 0 [seq dim C 1 | C <- l] k * nth 0 (rcons (tt_rank l) 1) k.
  exact: H L.
elim: l a => [|C l IH] a; first by rewrite big_geq.
move=> /= /and3P[_ /eqP sC Ll]; rewrite (IH _ Ll) big_nat_recl //; congr (_ + _).
  rewrite /asize sC /tt_rank /= muln1 -mulnA; congr (_ * (_ * _)).
  by case: (l) Ll => [/eqP|D l' /= /and3P[_ /eqP sD _]] //=; rewrite /dim sD.
case: (l) Ll => [|D l']; first by rewrite !big_geq.
move=> /= /and3P[_ /eqP sD _].
have e0 : dim D 0 = dim C 2 by rewrite {1}/dim sD.
apply: eq_big_nat => k /andP[_ hk]; rewrite /tt_rank /=; congr (_ * _ * _).
by case: k hk => [|k] hk //=; rewrite ?e0.
Qed.
Print Assumptions C57_train_size.

Theorem C57_other_sizes (R : comRingType) (X : tensor R) : wf_rep X ->
  match X with
  | Dense a => tsize X = Ok (Num (\prod_(n <- tshape X) n))
  | Sparse s _ vals => tsize X = Ok (Num (size vals * (size s).+1))
  | CP cs => exists r, all (fun C => nshape C == [:: dim C 0; r]) cs /\
               tsize X = Ok (Method (r * \sum_(n <- tshape X) n))
  | Tucker fs core => tsize X = Ok (Num (\prod_(r <- tucker_rank fs) r +
               \sum_(p <- zip (tucker_rank fs) (tshape X)) p.1 * p.2))
  | _ => True
  end.
Proof.
have pr (s : seq nat) : prods s = \prod_(n <- s) n by rewrite /prods foldrE.
case: X => [a|s i v|cs|cs|fs c|s Xs] //= W.
- by rewrite /asize pr.
- by rewrite addn1.
- exists (dim (head (Nd [::] [::]) cs) 1); case/andP: W => _ W; split.
    by apply: sub_all W => C /andP[].
  move: W; move: (dim (head _ _) 1) => r; rewrite /asize => W; congr (Ok (Method _)).
  elim: cs W => [|C cs IH] /=; first by rewrite big_nil muln0.
  by case/andP=> /andP[_ /eqP->] /IH->; rewrite big_cons mulnDr /= muln1 mulnC.
- case/and3P: W => w1 /eqP w2 w3; congr (Ok (Num (_ + _))); first by rewrite /asize w2 pr.
  rewrite {w2}; elim: fs w3 => [|U fs IH] /=; first by rewrite big_nil.
  by case/andP=> /andP[_ /eqP sU] /IH->; rewrite big_cons /asize {1}sU /= muln1.
Qed.
Print Assumptions C57_other_sizes.

(* ---- how the operations change the size ---- *)
Section Ops.
Variable R : comRingType.
Implicit Types (X Y : tensor R).

Lemma transpose_asize (a b : nd R) p : transpose a p = Ok b -> asize b = asize a.
Proof.
rewrite /transpose; case: ifP => // hp [<-]; rewrite /asize /tab /=.
have pr (s : seq nat) : prods s = \prod_(n <- s) n by rewrite /prods foldrE.
rewrite !pr big_map (perm_big _ hp) /= /dim -{2}(mkseq_nth 0%N (nshape a)) /mkseq big_map.
by [].
Qed.
Lemma nscale_asize c (a : nd R) : asize (nscale c a) = asize a.
Proof. by []. Qed.

(* a summand-by-summand map that preserves sizes *)
Lemma size_map_sum s s' (Xs Ys : seq (tensor R)) :
  List.Forall2 (fun x y => tsize y = tsize x) Xs Ys -> tsize (TSum s' Ys) = tsize (TSum s Xs).
Proof.
move=> H /=; move: 0%N; elim: H => [|x y l l' E _ IH] n //=.
by rewrite E; case: (tsize x) => [[m|m]|e] //=.
Qed.

Lemma mapM_Forall2 (P : tensor R -> tensor R -> Prop) (f : tensor R -> res (tensor R)) Xs Ys :
  (forall X Y, List.In X Xs -> f X = Ok Y -> P X Y) -> mapM f Xs = Ok Ys -> List.Forall2 P Xs Ys.
Proof.
elim: Xs Ys => [|x Xs IH] Ys H /=; first by case=> <-; constructor.
case E : (f x) => [y|] //=; case F : (mapM f Xs) => [ys|] //= -[<-].
constructor; first by apply: H E; left.
by apply: IH F => X Y h; apply: H; right.
Qed.

Lemma mk_sumE (Ys : seq (tensor R)) Z : mk_sum Ys = Ok Z -> exists s : seq nat, Z = TSum s Ys.
Proof. by case: Ys => [|y ys] //= [<-]; eexists. Qed.

Lemma tT_size X Y : tT X = Ok Y -> tsize Y = tsize X.
Proof.
elim/tensor_ind': X Y => [a|s i v|cs|cs|fs c|s Xs IH] Y.
- by rewrite /= /dense_T; case E : (transpose _ _) => [b|] //= -[<-] /=; rewrite (transpose_asize E).
- by case=> <- /=; rewrite size_rev.
- rewrite /= /tt_T; case E : (mapM _ _) => [l|] //= -[<-] /=; congr (Ok (Num _)).
  rewrite -[in RHS](revK cs) map_rev sumn_rev; move: (rev cs) l E => {cs}.
  elim=> [|C cs IH] l /=; first by case=> <-.
  case E : (transpose _ _) => [b|] //=; case F : (mapM _ cs) => [l'|] //= -[<-] /=.
  by rewrite (transpose_asize E) (IH _ F).
- by case=> <- /=; rewrite map_rev sumn_rev.
- rewrite /=; case E : (transpose _ _) => [b|] //= -[<-] /=; rewrite (transpose_asize E).
  by rewrite map_rev sumn_rev.
- rewrite tT_sum.
  case E : (mapM _ Xs) => [Ys|] //= H.
  have [s' ->] := mk_sumE H; apply: (@size_map_sum s).
  by apply: (@mapM_Forall2 (fun x y => tsize y = tsize x) _ _ _ _ E) => X Z h; apply: IH.
Qed.

Lemma tmul_size X c Y : tmul X c = Ok Y -> tsize Y = tsize X.
Proof.
elim/tensor_ind': X Y => [a|s i v|cs|cs|fs c0|s Xs IH] Y.
- by case=> <-.
- by case=> <- /=; rewrite size_map.
- rewrite [tmul _ _]/=; case E : (rev cs) => [|C r] // [<-] /=; congr (Ok (Num _)).
  by rewrite -(revK cs) E !map_rev !sumn_rev.
- by case: cs => [|C r] // [<-].
- by case=> <-.
- rewrite tmul_sum.
  case E : (mapM _ Xs) => [Ys|] //= H.
  have [s' ->] := mk_sumE H; apply: (@size_map_sum s).
  by apply: (@mapM_Forall2 (fun x y => tsize y = tsize x) _ _ _ _ E) => X Z h; apply: IH.
Qed.

Lemma size_cat s s1 s2 (Xs Ys : seq (tensor R)) m n :
  tsize (TSum s1 Xs) = Ok (Num m) -> tsize (TSum s2 Ys) = Ok (Num n) -> tsize (TSum s (Xs ++ Ys)) = Ok (Num (m + n)).
Proof.
pose go := fix go (acc : nat) l := match l with
        | [::] => Ok (Num acc)
        | x :: l' => do v <- @tsize R x;
                     match v with Num m => go (acc + m) l' | Method _ => Err TypeError end
        end.
have sh l k k' r : go k l = Ok (Num r) -> k <= r /\ go k' l = Ok (Num (k' + (r - k))).
  elim: l k k' => [|x l IH] k k' /=; first by case=> ->; rewrite subnn addn0.
  case: (tsize x) => [[j|j]|e] //= /(IH _ (k' + j)) [h1 ->]; split; first lia.
  by congr (Ok (Num _)); lia.
have ct a l l' r : go a l = Ok (Num r) -> go a (l ++ l') = go r l'.
  elim: l a => [|x l IH] a /=; first by case=> ->.
  by case: (tsize x) => [[j|j]|e] //= /IH.
move=> h1 h2; rewrite [LHS](ct 0 _ _ m h1).
by have [_ ->] := sh _ _ m _ h2; rewrite subn0.
Qed.

Lemma size_seq1 s X m : tsize X = Ok (Num m) -> tsize (TSum s [:: X]) = Ok (Num m).
Proof. by move=> /= ->. Qed.

Definition parts X := if X is TSum _ l then l else [:: X].
Lemma parts_size s X m : tsize X = Ok (Num m) -> tsize (TSum s (parts X)) = Ok (Num m).
Proof. by case: X => [a|s' i v|cs|cs|fs c|s' Xs] h; try exact: size_seq1 h. Qed.
Lemma tadd_parts X Y : tadd X Y = mk_sum (parts X ++ parts Y).
Proof. by case: Y => [a|s i v|cs|cs|fs c|s Ys]; case: X => [a'|s' i' v'|cs'|cs'|fs' c'|s' Xs]; rewrite /parts /= ?cats1. Qed.
Lemma parts0 X : wf_rep X -> exists x l, parts X = x :: l.
Proof. by case: X => [a|s i v|cs|cs|fs c|s [|x l]] // _; do 2!eexists. Qed.
End Ops.

(* .T and multiplication by a scalar do not change the size (nor whether it is a number) *)
Theorem C57_transpose_size (R : comRingType) (X : tensor R) : wf_rep X ->
  exists2 Y, tT X = Ok Y & tsize Y = tsize X.
Proof. by move=> W; have [Y E _] := tTE W; exists Y => //; apply: tT_size. Qed.
Theorem C57_mul_size (R : comRingType) (X : tensor R) c : wf_rep X ->
  exists2 Y, tmul X c = Ok Y & tsize Y = tsize X.
Proof. by move=> W; have [Y E _] := tmulE c W; exists Y => //; apply: tmul_size E. Qed.
(* the size of a sum is the sum of the sizes *)
Theorem C57_add_size (R : comRingType) (X Y : tensor R) : wf_rep X -> wf_rep Y -> ~~ has_cp X -> ~~ has_cp Y ->
  exists2 Z, tadd X Y = Ok Z & tsize Z = Ok (Num (stored X + stored Y)).
Proof.
move=> WX WY NX NY; rewrite tadd_parts; have [x [l E]] := parts0 WX.
have hX := parts_size (tshape x) (C57_size WX NX); have hY := parts_size [::] (C57_size WY NY).
by exists (TSum (tshape x) (parts X ++ parts Y)); [rewrite E | apply: size_cat hX hY].
Qed.
Print Assumptions C57_transpose_size.
Print Assumptions C57_mul_size.
Print Assumptions C57_add_size.

(* dense.to_sparse() stores every entry, zeros included: nnz is the number of entries of the
   array and the size is ndim + 1 times that of the array ... *)
Theorem C57_to_sparse_size (R : comRingType) (a : nd R) : nwf a ->
  tnnz (to_sparse a) = Ok (\prod_(n <- nshape a) n) /\
  tsize (to_sparse a) = Ok (Num (stored (Dense a) * (tndim (Dense a)).+1)).
Proof.
move=> w; rewrite /to_sparse /tnnz /tndim /=; move/eqP: (w) => ->; rewrite addn1; split=> //.
by rewrite /prods foldrE.
Qed.
(* ... so nnz is not the number of non-zero entries *)
Theorem C57_nnz_refuted (R : comRingType) (n : nat) :
  let X := to_sparse (zeros R [:: n]) in
  tnnz X = Ok n /\ (forall i, den X i = 0%R).
Proof.
split; first by rewrite /tnnz /= !size_map size_iota /prods /= muln1.
move=> i /=; apply: big1_seq => k _.
rewrite (_ : nth _ _ k = 0%R) ?mulr0 //; case: (ltnP k (prods [:: n])) => hk; last by rewrite nth_default // size_map size_iota.
by rewrite (nth_map 0%N) ?size_iota.
Qed.
(* splitting keeps the total size *)
Theorem C57_split_size (R : comRingType) s inds (vals : seq R) n : wf (Sparse s inds vals) -> 0 < n ->
  exists2 Y, sparse_split s inds vals n = Ok Y &
    num_summands Y = Ok n /\ tsize Y = tsize (Sparse s inds vals).
Proof.
move=> w n0; have [Y E [_ _ [ps [EY sz fl _]]]] := C16_split w n0; exists Y => //.
rewrite EY /= size_map sz; split=> //; rewrite -fl.
pose go := fix go (acc : nat) l := match l with
        | [::] => Ok (Num acc)
        | x :: l' => do v <- @tsize R x;
                     match v with Num m => go (acc + m) l' | Method _ => Err TypeError end
        end.
have H k : go k [seq Sparse s q.1 q.2 | q <- ps] = Ok (Num (k + size (flatten [seq q.2 | q <- ps]) * (size s + 1))).
  elim: ps {w E EY sz fl} k => [|q ps IH] k; first by rewrite /= addn0.
  by rewrite /= IH seq.size_cat mulnDl addnA.
exact: (H 0).
Qed.
Print Assumptions C57_to_sparse_size.
Print Assumptions C57_nnz_refuted.
Print Assumptions C57_split_size.

(* round never makes a train larger, and respects the budget's size *)
Theorem C57_round_smaller (R : rcfType) qr svd (cs : seq (nd R)) (eps : option R) (m : option ttrank) (o : bool) :
  qr_contract qr -> svd_contract svd -> round_args cs m o ->
  or_linalg (tt_round qr svd cs eps m o) (fun out =>
    exists m n, [/\ tsize (TT out) = Ok (Num m), tsize (TT cs) = Ok (Num n) & m <= n]).
Proof.
move=> qrP svdP [w p oP mP]; rewrite round_erase.
apply: (or_bind (tt_round_gP (m := m) qrP svdP eps w p oP mP)) => r [tt1 [rk' [_ _ H3 _]]] /=.
case: H3 => [w' S' _ [[B1 B2] _ _ _] _].
do 2!eexists; split; [exact: C57_train_size | exact: C57_train_size |].
rewrite S' /train_size; apply: leq_sum => k _; rewrite leq_mul ?leq_mul //; first by case: k.
by rewrite !nth_rcons B1; case: ifP.
Qed.
Print Assumptions C57_round_smaller.
Theorem C57_round_budget (R : rcfType) qr svd (cs : seq (nd R)) (eps : option R) (m : ttrank) (o : bool) rk :
  qr_contract qr -> svd_contract svd -> round_args cs (Some m) o ->
  process_tt_rank m (tshape (TT cs)) true = Ok rk -> all (leq 1) rk ->
  or_linalg (tt_round qr svd cs eps (Some m) o) (fun out =>
    exists2 m, tsize (TT out) = Ok (Num m) & m <= train_size (tshape (TT cs)) rk).
Proof.
move=> qrP svdP [w p oP mP] E pos; rewrite round_erase.
apply: (or_bind (tt_round_gP (m := Some m) qrP svdP eps w p oP mP)) => r [tt1 [rk' [_ E' H3 _]]] /=.
move: E'; rewrite E => -[e]; rewrite -{}e {rk'} in H3.
case: H3 => [w' S' _ [[B1 _] B2 _ _] _].
eexists; first exact: C57_train_size.
have [srk _] := RoundThy.process_size (pos_shape p) E.
have sr : size (tt_rank r.1) = size rk by rewrite srk B1 size_tt_rank /= size_map.
have B k : nth 0 (tt_rank r.1) k <= nth 0 rk k.
  case: (ltnP k (size rk)) => hk; last by rewrite nth_default // sr.
  apply: leq_trans (B2 k) _; move/(all_nthP 0): pos => /(_ k hk); lia.
rewrite S' /train_size; apply: leq_sum => k _; rewrite leq_mul ?leq_mul //; first by case: k.
by rewrite !nth_rcons sr; case: ifP.
Qed.
Print Assumptions C57_round_budget.

(* ---- the size of a streaming sketch: all Psi and Omega arrays.  Hypotheses as in C27_shapes;
   lk' and rk' are the ranks of the sketch. ---- *)
Section Sketches.
Variable R : comRingType.
Variable to_normal : N -> R.
Variable tt_random : seq nat -> seq nat -> N -> seq (nd R).
Variable stream : N -> nat -> R.
Variable offset : N -> nat -> N.
Variable right_seed_of : N -> nat -> N.
Variable lstsq : nd R -> nd R -> res (nd R).
Variable qr_econ : nd R -> res (nd R * nd R).
Notation stream_sketch := (stream_sketch to_normal tt_random stream offset right_seed_of lstsq qr_econ).
Notation new := (drm_new tt_random stream offset).

Theorem C57_sketch_size o X l r lk rk sd lt rt ent (lbig : bool) : let sh := tshape X in let d := size sh in
  tt_random_ok tt_random -> wf_rep X -> order_ok o X -> (1 < d)%N -> all (fun n => 0 < n)%N sh ->
  process_tt_rank l sh false = Ok lk -> process_tt_rank r sh false = Ok rk ->
  all (fun n => 0 < n)%N lk -> all (fun n => 0 < n)%N rk ->
  (forall mu, (mu < d.-1)%N -> if lbig then (nth 0 rk mu < nth 0 lk mu)%N else (nth 0 lk mu < nth 0 rk mu)%N) ->
  let lk' := trim_if (~~ lbig) sh lk in let rk' := trim_if lbig sh rk in
  let s := if sd is Some s then s else ent 0%N in
  new_args (lclass lt rt) lk' (Some s) -> new_args (rclass lt rt) rk' (Some (right_seed_of s d)) ->
  (forall D, new (lclass lt rt) ent (RTuple lk') sh false (Some s) = Ok D -> fits D d.-1 X) ->
  (forall E, new (rclass lt rt) ent (RTuple rk') sh true (Some (right_seed_of s d)) = Ok E -> fits E d.-1 X) ->
  exists2 st, stream_sketch X l r sd lt rt None None ent = Ok st &
    stt_size st = \sum_(0 <= mu < d) nth 0 (1 :: lk') mu * nth 0 sh mu * nth 0 (rcons rk' 1) mu
                + \sum_(0 <= mu < d.-1) nth 0 lk' mu * nth 0 rk' mu.
Proof.
move=> sh d hr w oX d1 hsh pl pr pol por hb lk' rk' s al ar fD fE.
have [st E [_ _ hP hO]] := @C27_shapes R to_normal tt_random stream offset right_seed_of lstsq qr_econ
  o X l r lk rk sd lt rt ent lbig hr w oX d1 hsh pl pr pol por hb al ar fD fE.
exists st => //; rewrite /stt_size !(map_comp prods (@nshape R)) hP hO -!map_comp !sumnE !big_map -/d.
rewrite /index_iota !subn0; congr (_ + _); apply: eq_bigr => k _ /=; first by rewrite muln1 mulnA.
by rewrite muln1.
Qed.

(* ---- get_drm_capabilities reports exactly which formats (of the three it lists) a DRM class
   has a method for; asking a DRM for a sketch it is not capable of raises AttributeError,
   and so does increase_rank without CanIncreaseRank ---- *)
Definition capable (c : drm_class) (k : capability) : Prop :=
  exists2 row, List.In (c, row) get_drm_capabilities & List.In (k, true) row.

Lemma capableE c k : capable c k <-> subclass c k.
Proof.
split; last by case: c; case: k => // _; rewrite /capable; eexists; rewrite /=; intuition.
by case=> row; rewrite /get_drm_capabilities /=; case: c => /= H;
  repeat (case: H => [[//<-]|H]) => //; case: k => //=; intuition.
Qed.

Theorem C57_capabilities (c : drm_class) :
  [/\ exists row, List.In (c, row) get_drm_capabilities,
      capable c CanSlice,
      capable c CanIncreaseRank <-> c = DenseGaussianDRM \/ c = SparseGaussianDRM,
      forall (D : drm R) new_rank, d_class D = c -> ~ capable c CanIncreaseRank ->
        drm_increase_rank tt_random stream offset D new_rank = Err AttributeError &
      forall (D : drm R) X k, d_class D = c -> ~ capable c k ->
        match k, X with
        | CansketchSparse, Sparse _ _ _ | CansketchDense, Dense _ | CansketchTT, TT _ =>
            sketch_all to_normal D X = Err AttributeError
        | _, _ => True
        end].
Proof.
have E k := capableE c k.
split.
- by case: c {E}; eexists; rewrite /=; intuition.
- by apply/E; case: c {E}.
- split; first by move/E; case: c {E} => // _; [left|right].
  by move=> h; apply/E; case: h => ->.
- move=> D nr <- h; rewrite /drm_increase_rank; case: ifP => // hc; case: h; apply/capableE.
  by case: (d_class D) hc.
- move=> D X k <-{c E} h; have {}h : ~~ subclass (d_class D) k by apply/negP => /capableE.
  by case: k X h => -[a|s i v|cs|cs|fs c|s Xs] //; case ec : (d_class D) => //= _;
    rewrite /sketch_all /= /wrapped_sketch /has_method ec.
Qed.
End Sketches.
Print Assumptions C57_sketch_size.
Print Assumptions C57_capabilities.

(* concrete cases that meet the hypotheses *)
Example C57_nonvacuous : wf_rep ex_sum /\ has_cp ex_sum /\ tsize ex_sum = Err TypeError.
Proof. by vm_compute. Qed.
Example C57_nonvacuous_number :
  let X := TSum [:: 2; 3; 2] [:: ex_sparse; TSum [:: 2; 3; 2] [:: TT ex_tt; Dense ex_dense]; Tucker ex_tucker_fs ex_tucker_core] in
  [/\ wf_rep X, ~~ has_cp X & exists2 n, tsize X = Ok (Num n) & n = stored X].
Proof. by split; [vm_compute|vm_compute|exists (stored (TSum [:: 2; 3; 2] [:: ex_sparse; TSum [:: 2; 3; 2] [:: TT ex_tt; Dense ex_dense]; Tucker ex_tucker_fs ex_tucker_core])); vm_compute]. Qed.
(* C57_round_*: the hypotheses are met in Prop_LinEx.C13_C14_nonvacuous; C57_sketch_size: in SkEx.v *)
