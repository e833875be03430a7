(* Proofs about sparse tensors, sums, .T, scalar multiplication, addition. *)
From Coq Require Import String Ascii.
From mathcomp Require Import all_ssreflect all_algebra.
From mathcomp Require Import zify.
From Verif Require Import Py Nd NdThy Ein Utils Tensor Spec ChainThy TensorThy.
Set Implicit Arguments. Unset Strict Implicit. Unset Printing Implicit Defensive.
Import GRing.Theory.
Local Open Scope ring_scope.

Lemma foldM_cat A S (f : S -> A -> res S) s l1 l2 :
  foldM f s (l1 ++ l2) = bind (foldM f s l1) (fun s' => foldM f s' l2).
Proof. by elim: l1 s => [|x l1 IH] s //=; case: (f s x) => //= s'; rewrite IH. Qed.

Lemma foldM_rcons A S (f : S -> A -> res S) s l x :
  foldM f s (rcons l x) = bind (foldM f s l) (fun s' => f s' x).
Proof. by rewrite -cats1 foldM_cat; case: foldM => //= s'; case: (f s' x). Qed.

Lemma iotaSr m n : iota m n.+1 = rcons (iota m n) (m + n)%N.
Proof. by rewrite -addn1 iotaD cats1. Qed.

Section SetGet.
Variable R : ringType.
Implicit Types (a : nd R).

Lemma set1_spec a i v : nwf a -> inb (nshape a) i ->
  exists2 b, set1 a i v = Ok b & [/\ nwf b, nshape b = nshape a &
    forall j, inb (nshape a) j -> get b j = if j == i then v else get a j].
Proof.
move=> Ha Hi; rewrite /set1 Hi.
exists (Nd (nshape a) (set_nth 0 (ndata a) (ravel (nshape a) i) v)) => //.
split=> //.
  rewrite /nwf /= size_set_nth (eqP Ha); have := ravel_lt Hi; lia.
move=> j Hj; rewrite /get /= nth_set_nth /=.
case: eqP => [E|N]; first by rewrite (ravel_inj Hj Hi E) eqxx.
by case: eqP => // E; case: N; rewrite E.
Qed.

Lemma nwf_zeros s : nwf (zeros R s). Proof. exact: nwf_tab. Qed.
End SetGet.

Section Sparse.
Variable R : comRingType.
Notation arr := (nd R).
Notation tensor := (tensor R).
Implicit Types (X Y : tensor) (Xs Ys : seq tensor).

Lemma coordE inds k : coord inds k = column inds k. Proof. by []. Qed.

Lemma sparse_fold s inds (vals : seq R) n :
  all (fun k => inb s (column inds k)) (iota 0 n) -> norep inds n ->
  exists2 a, foldM (fun a k => set1 a (coord inds k) (nth 0 vals k)) (zeros R s) (iota 0 n)
      = Ok a &
   [/\ nwf a, nshape a = s & forall i, inb s i ->
     get a i = \sum_(0 <= k < n) (column inds k == i)%:R * nth 0 vals k].
Proof.
elim: n => [|n IH].
  move=> _ _; exists (zeros R s) => //; split; rewrite ?nwf_zeros // => i _.
  by rewrite get_zeros big_geq.
rewrite /norep iotaSr add0n all_rcons map_rcons rcons_uniq.
move=> /andP[Hn Hall] /andP[Hnot /IH[]] // a Ea [Ha Sa Ga].
rewrite foldM_rcons Ea /=.
have [] := @set1_spec _ a (coord inds n) (nth 0 vals n) Ha; first by rewrite Sa.
move=> b -> [Hb Sb Gb]; exists b => //; split=> //; first by rewrite Sb.
move=> i Hi; rewrite Gb ?Sa // big_nat_recr //= Ga //.
case: eqP => [E|N]; last first.
  by rewrite -coordE eq_sym; case: eqP => // _; rewrite mul0r addr0.
rewrite E -coordE eqxx mul1r big1_seq ?add0r // => k /=; rewrite mem_index_iota => /andP[_ Hk].
case: eqP => [E'|]; last by rewrite mul0r.
case/negP: Hnot; rewrite -coordE -E'; apply: map_f; by rewrite mem_iota.
Qed.

Lemma sparse_to_numpyE s inds (vals : seq R) :
  wf_inds s inds (size vals) -> norep inds (size vals) ->
  exists2 a, sparse_to_numpy s inds vals = Ok a & represents a (Sparse s inds vals).
Proof.
case/and3P=> _ H1 H2 H3; rewrite /sparse_to_numpy H1.
by have [a -> Ha] := sparse_fold vals H2 H3; exists a.
Qed.

(* nested induction *)
Lemma tensor_ind' (P : tensor -> Prop) :
  (forall a, P (Dense a)) -> (forall s i v, P (Sparse s i v)) -> (forall cs, P (TT cs)) ->
  (forall cs, P (CP cs)) -> (forall fs c, P (Tucker fs c)) ->
  (forall s Xs, (forall x, List.In x Xs -> P x) -> P (TSum s Xs)) ->
  forall X, P X.
Proof.
move=> HD HS HT HC HK HSum; fix IH 1; case=> [a|s i v|cs|cs|fs c|s Xs];
  [exact: HD|exact: HS|exact: HT|exact: HC|exact: HK|].
apply: HSum; elim: Xs => [|x Xs IHl] y Hy; first by case: Hy.
by case: Hy => [E|Hy]; [case: _ / E; exact (IH x)|exact: (IHl y Hy)].
Qed.

Lemma den_sum s Xs i : den (TSum s Xs) i = \sum_(x <- Xs) den x i.
Proof. by elim: Xs => [|x Xs /= IH] /=; rewrite ?big_nil ?big_cons // IH. Qed.

Lemma wf_sumE nr s Xs : wf_gen nr (TSum s Xs) =
  ~~ nilp Xs && all (fun x => wf_gen nr x && (tshape x == s)) Xs.
Proof. by rewrite /=; congr (_ && _); elim: Xs => [|x Xs IH] //=; rewrite IH andbA. Qed.

Lemma wf_wf_rep X : wf X -> wf_rep X.
Proof.
rewrite /wf /wf_rep; elim/tensor_ind': X => //= [s i v|s Xs IH].
  by case/andP=> ->.
move=> /andP[-> H] /=; elim: Xs IH H => [|x Xs IHl] IH //= /and3P[H1 H2 H3].
by rewrite IH ?H2 ?IHl //; [move=> y Hy; apply: IH; right|left].
Qed.

Definition sum_np := (fix go (acc : arr) (l : seq tensor) := match l with
        | [::] => Ok acc
        | x :: l' => do a <- to_numpy x; do acc' <- iadd acc a; go acc' l'
        end).

(* to_numpy of every format *)
Lemma to_numpyE X : wf X -> exists2 a, to_numpy X = Ok a & represents a X.
Proof.
elim/tensor_ind': X => [a|s i v|cs|cs|fs c|s Xs IH] H.
- by exists a.
- by move: H => /andP[H1 H2]; exact: sparse_to_numpyE.
- exact: tt_to_numpyE.
- exact: cp_to_numpyE.
- exact: tucker_to_numpyE.
rewrite /wf wf_sumE in H; case/andP: H => _ H.
rewrite /= -/sum_np.
suff L acc : nwf acc -> nshape acc = s -> exists2 a, sum_np acc Xs = Ok a &
   [/\ nwf a, nshape a = s & forall i, inb s i -> get a i = get acc i + \sum_(x <- Xs) den x i].
  have [a -> [H1 H2 H3]] := L (zeros R s) (nwf_zeros _ _) erefl.
  by exists a => //; split=> // i /= Hi; rewrite H3 // get_zeros add0r -(den_sum s).
elim: Xs IH H acc => [|x Xs IHl] IH /= H acc Ha Sa.
  by exists acc => //; split=> // i _; rewrite big_nil addr0.
case/andP: H => /andP[Hx /eqP Sx] Hs.
have [||a -> [Hw Sh Ge]] := IH x => //; first by left.
rewrite /= iaddE ?Sa ?Sh ?Sx //=.
have [||||b -> [Hb Sb Gb]] := IHl _ _ (tab s (fun i => get acc i + get a i)) => //.
- by move=> y Hy; apply: IH; right.
- exact: nwf_tab.
exists b => //; split=> // i Hi; rewrite Gb // get_tab // big_cons Ge ?Sx //.
by rewrite addrA.
Qed.

(* C05: .T ----------------------------------------------------------- *)
Lemma map_nth_iota (T : Type) (x0 : T) (s : seq T) : [seq nth x0 s k | k <- iota 0 (size s)] = s.
Proof. exact: mkseq_nth. Qed.

Lemma index_rev_iota n k : (k < n)%N -> index k (rev (iota 0 n)) = (n - k.+1)%N.
Proof.
move=> Hk; have E : k = nth 0%N (rev (iota 0 n)) (n - k.+1).
  by rewrite nth_rev size_iota; [rewrite nth_iota; lia|lia].
rewrite {1}E index_uniq ?rev_uniq ?iota_uniq // size_rev size_iota; lia.
Qed.

Lemma transpose_rev (a : arr) :
  transpose a (rev (iota 0 (ndim a))) = Ok (tab (rev (nshape a)) (fun i => get a (rev i))).
Proof.
rewrite /transpose perm_rev perm_refl; congr Ok.
have -> : [seq dim a k | k <- rev (iota 0 (ndim a))] = rev (nshape a).
  by rewrite map_rev /dim /ndim map_nth_iota.
apply: tab_ext => i Hi; congr get; have Es := inb_size Hi; rewrite size_rev in Es.
apply: (@eq_from_nth _ 0%N); first by rewrite size_map size_iota size_rev Es.
move=> k; rewrite size_map size_iota => Hk.
rewrite (nth_map 0%N) ?size_iota // nth_iota // add0n index_rev_iota //.
by rewrite nth_rev Es.
Qed.

Lemma transpose3 (C : arr) a b c : nshape C = [:: a; b; c] ->
  transpose C [:: 2; 1; 0]%N = Ok (tab3 c b a (fun x y z => get C [:: z; y; x])).
Proof.
move=> E; have := transpose_rev C; rewrite /ndim E /= => ->; congr Ok.
Qed.

Definition flipc (C : arr) : arr :=
  tab3 (dim C 2) (dim C 1) (dim C 0) (fun x y z => get C [:: z; y; x]).

Lemma tt_TE a cs b : links a cs b -> tt_T cs = Ok (rev (map flipc cs)).
Proof.
rewrite /tt_T => H.
suff: forall cs', (forall C, List.In C cs' -> nshape C = [:: dim C 0; dim C 1; dim C 2]) ->
   mapM (fun C => transpose C [:: 2; 1; 0]%N) cs' = Ok (map flipc cs').
  rewrite -map_rev; apply; move=> C.
  elim: cs a H => [|D cs IH] a //= /and3P[_ /eqP HD /IH IHl].
  rewrite rev_cons -cats1 => HC; case: (List.in_app_or _ _ _ HC) => [/IHl //|].
  by case=> // <-; rewrite {1}HD /dim HD.
elim=> [|C cs' IH] Hs //=; rewrite (transpose3 (Hs C _)); last by left.
by rewrite /= IH // => D HD; apply: Hs; right.
Qed.

Lemma links_flip a cs b : links a cs b -> links b (rev (map flipc cs)) a.
Proof.
elim: cs a => [|C cs IH] a /=; first by rewrite eq_sym.
case/and3P=> HC /eqP SC Hl; rewrite rev_cons; apply: (links_rconsI (IH _ Hl)).
  exact: nwf_tab.
by rewrite /= /dim SC.
Qed.

Lemma chain_flip m cs n i a b : links m cs n -> inb [seq dim C 1 | C <- cs] i ->
  (a < m)%N -> (b < n)%N ->
  chain (rev (map flipc cs)) (rev i) b a = chain cs i a b.
Proof.
elim: cs m i a => [|C cs IH] m [|k i] a //=; first by move=> _ _ _ _; rewrite eq_sym.
case/and3P=> HC /eqP SC Hl /andP[Hk Hi] Ha Hb.
rewrite !rev_cons (chain_rcons _ (links_flip Hl)) //; last first.
- by rewrite /flipc /= /dim SC.
- by rewrite !size_rev size_map (inb_size Hi) size_map.
apply: eq_big_nat => l /= Hl'; rewrite (IH _ _ _ Hl) // mulrC; congr (_ * _).
by rewrite get_tab3 // /dim SC.
Qed.

Lemma column_rev inds k : column (rev inds) k = rev (column inds k).
Proof. exact: map_rev. Qed.

Lemma zip_rev2 (A B : Type) (s : seq A) (t : seq B) : size s = size t ->
  zip (rev s) (rev t) = rev (zip s t).
Proof. by move=> H; rewrite rev_zip. Qed.

Lemma big_revc (T : Type) (l : seq T) (f : T -> R) :
  \prod_(x <- rev l) f x = \prod_(x <- l) f x.
Proof.
elim: l => [|x l IH] //; rewrite rev_cons -cats1 big_cat big_seq1 IH big_cons.
by rewrite mulrC.
Qed.

Lemma tT_sum s Xs : tT (TSum s Xs) = bind (mapM (@tT R) Xs) (@mk_sum R).
Proof. by rewrite /=; congr bind; elim: Xs => [|x Xs IH] //=; rewrite IH. Qed.

(* C05 *)
Lemma tTE nr X : wf_gen nr X -> exists2 Y, tT X = Ok Y &
  [/\ wf_gen nr Y, tshape Y = rev (tshape X) &
   forall i, inb (tshape X) i -> den Y (rev i) = den X i].
Proof.
elim/tensor_ind': X => [a|s inds v|cs|cs|fs c|s Xs IH] H.
- rewrite /= /dense_T transpose_rev /=; eexists; first by [].
  split=> //=; first exact: nwf_tab.
  by move=> i Hi; rewrite get_tab ?inb_rev ?revK.
- eexists; first by []; move: H => /= /andP[/and3P[/eqP H1 H2 H3] H4]; split=> //.
    apply/andP; split; last first.
      case: nr H4 => //=; rewrite /norep => H4.
      have -> : [seq column (rev inds) k | k <- iota 0 (size v)] =
         map rev [seq column inds k | k <- iota 0 (size v)].
        by rewrite -map_comp; apply: eq_map => k; rewrite /= column_rev.
      by rewrite map_inj_uniq //; apply: (can_inj revK).
    apply/and3P; split; first by rewrite !size_rev H1.
      by rewrite all_rev.
    apply/allP => k /(allP H3); by rewrite column_rev inb_rev.
  move=> i Hi /=; apply: eq_bigr => k _.
  by rewrite column_rev (can_eq revK).
- case/andP: H => Hn Hl; rewrite /= (tt_TE Hl) /=; eexists; first by []; split.
  + rewrite /wf_gen /wf_tt (links_flip Hl) andbT.
    by rewrite /nilp size_rev size_map.
  + by rewrite /= map_rev -map_comp.
  by move=> i Hi /=; rewrite (chain_flip Hl Hi).
- eexists; first by []; case/andP: H => Hn H.
  have Hd : dim (head (Nd [::] [::]) (rev cs)) 1 = dim (head (Nd [::] [::]) cs) 1.
    have : head (Nd [::] [::]) (rev cs) = last (Nd [::] [::]) cs.
      by case/lastP: cs {Hn H} => [|cs C] //; rewrite rev_rcons last_rcons.
    move=> ->; move: H; case/lastP: cs Hn => [|cs C] // _.
    rewrite last_rcons all_rcons => /andP[/andP[_ /eqP E] _].
    by rewrite {1}/dim E.
  split.
  + rewrite /= /wf_cp Hd all_rev H andbT.
    by rewrite /nilp size_rev.
  + by rewrite /= map_rev.
  move=> i Hi /=; rewrite Hd; apply: eq_bigr => r _.
  have Es : size cs = size i by rewrite (inb_size Hi) size_map.
  by rewrite zip_rev2 // big_revc.
- case/and3P: H => Hc /eqP Sc Hf.
  have E : size fs = ndim c by rewrite /ndim Sc size_map.
  rewrite /= E transpose_rev /=; eexists; first by []; split.
  + rewrite /= /wf_tucker nwf_tab all_rev Hf andbT /=.
    by rewrite Sc map_rev.
  + by rewrite /= map_rev.
  move=> i Hi /=; rewrite sum_idx_rev; apply: eq_sum_idx => j Hj.
  rewrite get_tab ?inb_rev // revK; congr (_ * _).
  have Ei : size fs = size i by rewrite (inb_size Hi) size_map.
  have Ej : size fs = size j by rewrite (inb_size Hj) Sc size_map.
  rewrite zip_rev2 -?Ei // zip_rev2 ?size_zip -?Ei -?Ej ?minnn //.
  by rewrite big_revc.
rewrite wf_sumE in H; case/andP: H => Hn H; rewrite tT_sum.
have [Ys EY [H1 H2 H3 H4]] : exists2 Ys, mapM (@tT R) Xs = Ok Ys &
   [/\ size Ys = size Xs, all (wf_gen nr) Ys, all (fun y => tshape y == rev s) Ys &
       forall i, inb s i -> \sum_(y <- Ys) den y (rev i) = \sum_(x <- Xs) den x i].
  elim: Xs IH H {Hn} => [|x Xs IHl] IH /=.
    by exists [::] => //; split=> // i _; rewrite !big_nil.
  case/andP=> /andP[Hx /eqP Sx] Hs.
  have [||y -> [Wy Sy Dy]] := IH x => //; first by left.
  have [|//|Ys -> [H1 H2 H3 H4]] := IHl; first by move=> z Hz; apply: IH; right.
  exists (y :: Ys) => //; split=> /=; rewrite ?H1 ?Wy ?H2 ?Sy ?Sx ?eqxx //.
  by move=> i Hi; rewrite !big_cons H4 // Dy // Sx.
rewrite EY /=; case: Ys EY H1 H2 H3 H4 => [|y Ys] EY H1 H2 H3 H4.
  by case: (Xs) Hn H1.
have Sy : tshape y = rev s by case/andP: H3 => /eqP.
eexists; first by []; split; [|exact: Sy|].
  rewrite wf_sumE /= Sy.
  have -> : all (fun x => wf_gen nr x && (tshape x == rev s)) Ys =
     all (wf_gen nr) Ys && all (fun x => tshape x == rev s) Ys by rewrite -all_predI.
  by move: H2 H3 => /= /andP[-> ->] /andP[_ ->]; rewrite eqxx.
move=> i Hi; rewrite den_sum H4 //; symmetry; exact: (den_sum s).
Qed.

(* C06: scalar multiplication ---------------------------------------- *)
Lemma get_nscale c (a : arr) i : inb (nshape a) i -> get (nscale c a) i = get a i * c.
Proof. by move=> Hi; rewrite get_tab. Qed.

Lemma tmul_sum s Xs c : tmul (TSum s Xs) c = bind (mapM (fun x => tmul x c) Xs) (@mk_sum R).
Proof. by rewrite /=; congr bind; elim: Xs => [|x Xs IH] //=; rewrite IH. Qed.

Lemma all_wf_sh nr s (Ys : seq tensor) :
  all (fun x => wf_gen nr x && (tshape x == s)) Ys =
  all (wf_gen nr) Ys && all (fun x => tshape x == s) Ys.
Proof. by rewrite -all_predI. Qed.

Lemma tmulE nr X c : wf_gen nr X -> exists2 Y, tmul X c = Ok Y &
  [/\ wf_gen nr Y, tshape Y = tshape X &
   forall i, inb (tshape X) i -> den Y i = c * den X i].
Proof.
elim/tensor_ind': X => [a|s inds v|cs|cs|fs co|s Xs IH] H.
- eexists; first by []; split=> //=; first exact: nwf_tab.
  by move=> i Hi; rewrite get_nscale // mulrC.
- eexists; first by []; move: H => /= H; split=> //=; first by rewrite size_map.
  move=> i Hi; rewrite size_map big_distrr /=; apply: eq_big_nat => k /= Hk.
  by rewrite (nth_map 0) // mulrA [RHS]mulrC.
- case/andP: H => Hn Hl; rewrite /=.
  case/lastP: cs Hn Hl => [|cs C] // _ Hl; rewrite rev_rcons /=.
  eexists; first by [].
  have [r [H1 H2 H3]] := links_rcons Hl.
  split.
  + rewrite rev_cons revK /= /wf_tt /nilp size_rcons /=.
    by apply: (links_rconsI H1); rewrite ?nwf_tab.
  + by rewrite rev_cons revK /= !map_rcons.
  move=> i; rewrite rev_cons revK /= map_rcons => /inb_rconsP[i' [k [-> Hi Hk]]].
  have Es : size i' = size cs by rewrite (inb_size Hi) size_map.
  have D2 : (0 < dim C 2)%N by rewrite /dim H3.
  rewrite (chain_rcons _ H1 Es) // (chain_rcons _ H1 Es) //.
  rewrite big_distrr /=; apply: eq_big_nat => l /= Hl'.
  rewrite get_nscale ?H3 /= ?Hl' ?Hk // mulrA.
  by rewrite [RHS]mulrC.
- case/andP: H => Hn; case: cs Hn => [|C cs] // _ H /=.
  eexists; first by []; split=> //=.
  + by move: H; rewrite /wf_cp /= nwf_tab /= => /andP[/andP[_ ->] ->].
  move=> [|k i] //= /andP[Hk Hi]; rewrite big_distrr /=.
  have SC : nshape C = [:: dim C 0; dim C 1] by case/andP: H => /andP[_ /eqP].
  apply: eq_big_nat => r /= Hr; rewrite !big_cons /=.
  have -> : get (nscale c C) [:: k; r] = get C [:: k; r] * c.
    by apply: get_nscale; rewrite SC /= Hk Hr.
  by rewrite [c * _]mulrC mulrAC.
- case/and3P: H => Hc /eqP Sc Hf.
  eexists; first by []; split=> //=.
  + by rewrite /wf_tucker nwf_tab /= Sc eqxx.
  move=> i Hi; rewrite -sum_idxZ; apply: eq_sum_idx => j Hj.
  by rewrite get_nscale // [c * _]mulrC mulrAC.
rewrite wf_sumE in H; case/andP: H => Hn H; rewrite tmul_sum.
have [Ys EY [H1 H2 H3 H4]] : exists2 Ys, mapM (fun x => tmul x c) Xs = Ok Ys &
   [/\ size Ys = size Xs, all (wf_gen nr) Ys, all (fun y => tshape y == s) Ys &
       forall i, inb s i -> \sum_(y <- Ys) den y i = c * \sum_(x <- Xs) den x i].
  elim: Xs IH H {Hn} => [|x Xs IHl] IH /=.
    by exists [::] => //; split=> // i _; rewrite !big_nil mulr0.
  case/andP=> /andP[Hx /eqP Sx] Hs.
  have [||y -> [Wy Sy Dy]] := IH x => //; first by left.
  have [|//|Ys -> [H1 H2 H3 H4]] := IHl; first by move=> z Hz; apply: IH; right.
  exists (y :: Ys) => //; split=> /=; rewrite ?H1 ?Wy ?H2 ?Sy ?Sx ?eqxx //.
  by move=> i Hi; rewrite !big_cons H4 // Dy ?Sx // mulrDr.
rewrite EY /=; case: Ys EY H1 H2 H3 H4 => [|y Ys] EY H1 H2 H3 H4.
  by case: (Xs) Hn H1.
have Sy : tshape y = s by case/andP: H3 => /eqP.
eexists; first by []; split; [|exact: Sy|].
  by rewrite wf_sumE Sy all_wf_sh H2 H3.
move=> i Hi; rewrite den_sum H4 //; congr (_ * _); symmetry; exact: (den_sum s).
Qed.

(* C07: addition ------------------------------------------------------ *)
Definition summands X : seq tensor := if X is TSum _ l then l else [:: X].

Lemma taddE nr X Y : wf_gen nr X -> wf_gen nr Y -> tshape X = tshape Y ->
  exists2 Z, tadd X Y = Ok Z &
  [/\ wf_gen nr Z, tshape Z = tshape X, Z = TSum (tshape X) (summands X ++ summands Y) &
   forall i, den Z i = den X i + den Y i].
Proof.
move=> HX HY ES.
have E : tadd X Y = mk_sum (summands X ++ summands Y).
  by case: X Y {HX HY ES} => [?|? ? ?|?|?|? ?|? ?] [?|? ? ?|?|?|? ?|? ?] //=; rewrite cats1.
have A Z : wf_gen nr Z -> ~~ nilp (summands Z) /\
    all (fun x => wf_gen nr x && (tshape x == tshape Z)) (summands Z).
  by case: Z => [?|? ? ?|?|?|? ?|? ?] H; rewrite /= ?eqxx ?andbT //; move: H; rewrite wf_sumE => /andP[].
have D Z i : den Z i = \sum_(x <- summands Z) den x i.
  by case: Z => [?|? ? ?|?|?|? ?|? ?]; rewrite ?den_sum // big_seq1.
have [NX AX] := A X HX; have [NY AY] := A Y HY.
rewrite E; case EX : (summands X) NX AX => [|x xs] // _ AX.
have Sx : tshape x = tshape X by case/andP: AX => /andP[_ /eqP].
exists (TSum (tshape X) ((x :: xs) ++ summands Y)); first by rewrite /= Sx.
split=> // [|i].
  by rewrite wf_sumE /= all_cat; move: AX AY => /= /andP[-> ->]; rewrite -ES.
by rewrite den_sum big_cat -EX -!D.
Qed.

Lemma tiaddE nr X Y : wf_gen nr X -> wf_gen nr Y -> tshape X = tshape Y ->
  tiadd X Y = tadd X Y.
Proof.
move=> HX HY ES; have [Z EZ [_ _ E2 _]] := taddE HX HY ES; rewrite EZ E2.
case: X HX ES EZ E2 => [?|? ? ?|?|?|? ?|s xs] HX ES EZ E2 /=; rewrite -?E2 //.
Qed.

Lemma tsubE nr X Y : wf_gen nr X -> wf_gen nr Y -> tshape X = tshape Y ->
  exists2 Z, tsub X Y = Ok Z &
  [/\ wf_gen nr Z, tshape Z = tshape X &
   forall i, inb (tshape X) i -> den Z i = den X i - den Y i].
Proof.
move=> HX HY ES; rewrite /tsub /tneg.
have [Y' -> [WY' SY' DY']] := tmulE (-1) HY.
have [|Z EZ [WZ SZ _ DZ]] := taddE HX WY'; first by rewrite SY'.
exists Z => //; split=> // i Hi; rewrite DZ DY' -?ES // mulN1r.
by [].
Qed.

End Sparse.
