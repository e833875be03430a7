(* Proofs about TensorTrain.add, gather, split, to_sparse, partial_dense, dot. *)
From Coq Require Import String Ascii.
From mathcomp Require Import all_ssreflect all_algebra.
From mathcomp Require Import zify.
From Verif Require Import Py Nd NdThy Ein Utils Tensor Spec ChainThy TensorThy TensorThy2.
Set Implicit Arguments. Unset Strict Implicit. Unset Printing Implicit Defensive.
Import GRing.Theory.
Local Open Scope ring_scope.

Section Add.
Variable R : comRingType.
Notation arr := (nd R).
Notation tensor := (tensor R).
Implicit Types (A B C D : arr) (cs : seq arr) (X Y : tensor).

Lemma sum_nat_split m n (f : nat -> R) :
  \sum_(0 <= l < m + n) f l = \sum_(0 <= l < m) f l + \sum_(0 <= l < n) f (m + l)%N.
Proof.
rewrite (big_cat_nat _ (n := m)) ?leq_addr //=; congr (_ + _).
rewrite -{1}(add0n m) big_addn addKn.
by apply: eq_bigr => l _; rewrite addnC.
Qed.

Lemma concat2E A B a n b c : nshape A = [:: a; n; b] -> nshape B = [:: a; n; c] ->
  concat_ax 2 A B = Ok (tab3 a n (b + c) (fun x y z =>
     if (z < b)%N then get A [:: x; y; z] else get B [:: x; y; (z - b)%N])).
Proof.
move=> HA HB; rewrite /concat_ax /ndim /dim HA HB /= eqxx.
by congr Ok; apply: tab_ext => x /inb3P[i [j [k [-> _ _ _]]]].
Qed.

Lemma concat0E A B a n b c : nshape A = [:: a; n; b] -> nshape B = [:: c; n; b] ->
  concat_ax 0 A B = Ok (tab3 (a + c) n b (fun x y z =>
     if (x < a)%N then get A [:: x; y; z] else get B [:: (x - a)%N; y; z])).
Proof.
move=> HA HB; rewrite /concat_ax /ndim /dim HA HB /= eqxx.
by congr Ok; apply: tab_ext => x /inb3P[i [j [k [-> _ _ _]]]].
Qed.

Definition blockc A B : arr :=
  tab3 (dim A 0 + dim B 0) (dim A 1) (dim A 2 + dim B 2) (fun x y z =>
    if (x < dim A 0)%N then if (z < dim A 2)%N then get A [:: x; y; z] else 0
    else if (z < dim A 2)%N then 0 else get B [:: (x - dim A 0)%N; y; (z - dim A 2)%N]).

Lemma tt_add_midE A B a n b c d : nshape A = [:: a; n; b] -> nshape B = [:: c; n; d] ->
  tt_add_mid A B = Ok (blockc A B).
Proof.
move=> HA HB; rewrite /tt_add_mid HA HB.
rewrite (@concat2E A (zeros R [:: a; n; d]) a n b d) //=.
rewrite (@concat2E (zeros R [:: c; n; b]) B c n b d) //=.
set T1 := tab3 _ _ _ _; set T2 := tab3 _ _ _ _.
rewrite (@concat0E T1 T2 a n (b + d) c) //; congr Ok.
rewrite /blockc /dim HA HB /=; apply: tab3_ext => i j k Hi Hj Hk.
case: ltnP => Hia; rewrite get_tab3 //; last by lia.
  by rewrite get_zeros.
by rewrite get_zeros.
Qed.

Lemma dim_blockc A B k : k = 1%N -> dim (blockc A B) k = dim A k. 
Proof. by move=> ->. Qed.

Lemma mids_spec cs1 cs2 a1 b1 a2 b2 : links a1 cs1 b1 -> links a2 cs2 b2 ->
  [seq dim C 1 | C <- cs1] = [seq dim C 1 | C <- cs2] ->
  exists2 ms, mapM (fun p => tt_add_mid p.1 p.2) (zip cs1 cs2) = Ok ms &
   [/\ links (a1 + a2) ms (b1 + b2), [seq dim C 1 | C <- ms] = [seq dim C 1 | C <- cs1],
      [seq dim C 0 | C <- ms] = [seq (dim p.1 0 + dim p.2 0)%N | p <- zip cs1 cs2] &
    forall i x y, inb [seq dim C 1 | C <- cs1] i -> (x < a1 + a2)%N -> (y < b1 + b2)%N ->
      chain ms i x y =
       if (x < a1)%N then if (y < b1)%N then chain cs1 i x y else 0
       else if (y < b1)%N then 0 else chain cs2 i (x - a1)%N (y - b1)%N].
Proof.
elim: cs1 cs2 a1 a2 => [|A cs1 IH] [|B cs2] a1 a2 //=.
  move=> /eqP -> /eqP -> _; exists [::] => //; split=> //; first by rewrite /= eqxx.
  move=> [|? ?] //= x y _ Hx Hy.
  case: (ltnP x b1) => H1; case: (ltnP y b1) => H2 //.
  - by case: eqP => // ?; lia.
  - by case: eqP => // ?; lia.
  by have -> : (x == y) = (x - b1 == y - b1)%N by lia.
case/and3P=> HA /eqP SA Hl1 /and3P[HB /eqP SB Hl2] [ES Es].
rewrite ES in SA; rewrite (tt_add_midE SA SB) /=.
have [ms -> [L Sh Rk G]] := IH _ _ _ Hl1 Hl2 Es.
have D0 : dim A 0 = a1 by rewrite /dim SA.
have D0' : dim B 0 = a2 by rewrite /dim SB.
exists (blockc A B :: ms) => //; split=> [|/=|/=|].
- apply/and3P; split; [exact: nwf_tab| |exact: L].
  by apply/eqP; rewrite /blockc /= D0 D0'.
- by rewrite Sh.
- by rewrite Rk.
move=> [|k i] // x y /andP[Hk Hi] Hx Hy; rewrite /=.
have -> : dim (blockc A B) 2 = (dim A 2 + dim B 2)%N by [].
rewrite sum_nat_split.
have Gb l : (l < dim A 2 + dim B 2)%N -> get (blockc A B) [:: x; k; l] =
    if (x < a1)%N then if (l < dim A 2)%N then get A [:: x; k; l] else 0
    else if (l < dim A 2)%N then 0 else get B [:: (x - a1)%N; k; (l - dim A 2)%N].
  by move=> Hl; rewrite get_tab3 ?D0 ?D0'.
have S1 : \sum_(0 <= l < dim A 2) get (blockc A B) [:: x; k; l] * chain ms i l y =
   if (x < a1)%N && (y < b1)%N then \sum_(0 <= l < dim A 2) get A [:: x; k; l] * chain cs1 i l y else 0.
  case: ifP => [/andP[X1 Y1]|N].
    apply: eq_big_nat => l /= Hl; rewrite Gb; last lia.
    by rewrite X1 Hl G // ?Hl ?Y1 //; lia.
  rewrite big1_seq // => l /=; rewrite mem_index_iota => /andP[_ Hl].
  rewrite Gb; last lia.
  rewrite Hl; case: (ltnP x a1) => X1; last by rewrite mul0r.
  by rewrite G // ?Hl; [move: N; rewrite X1 /= => ->; rewrite mulr0|lia].
have S2 : \sum_(0 <= l < dim B 2) get (blockc A B) [:: x; k; (dim A 2 + l)%N] * chain ms i (dim A 2 + l)%N y =
   if (a1 <= x)%N && (b1 <= y)%N then
    \sum_(0 <= l < dim B 2) get B [:: (x - a1)%N; k; l] * chain cs2 i l (y - b1)%N else 0.
  have LL l : (dim A 2 + l < dim A 2)%N = false by lia.
  case: ifP => [/andP[X1 Y1]|N].
    apply: eq_big_nat => l /= Hl; rewrite Gb ?G ?LL //; try lia.
    by rewrite ltnNge X1 ltnNge Y1 /= !addKn.
  rewrite big1_seq // => l /=; rewrite mem_index_iota => /andP[_ Hl].
  rewrite Gb; last lia.
  rewrite LL; case: (ltnP x a1) => X1; first by rewrite mul0r.
  rewrite G // ?LL; try lia.
  by case: (ltnP y b1) => Y1; [rewrite mulr0|move: N; rewrite X1 Y1].
rewrite S1 S2; case: (ltnP x a1); case: (ltnP y b1) => /=; rewrite ?addr0 ?add0r //.
Qed.

(* C08 *)
(* lia on the few hypotheses about sizes only (large contexts make it slow) *)
Local Ltac flia :=
  repeat match goal with
  | H : ?T |- _ => lazymatch T with
      | is_true (leq _ _) => fail
      | is_true (leq _ _ && leq _ _) => fail
      | forall _, _ => clear H
      | is_true _ => clear H
      | @eq nat _ _ => fail
      | _ = _ => clear H
      end
  end;
  repeat match goal with H := _ : _ |- _ => clear H end; lia.

Lemma tt_addE cs1 cs2 : wf_tt cs1 -> wf_tt cs2 -> (2 <= size cs1)%N ->
  tshape (TT cs1) = tshape (TT cs2) ->
  exists2 cs, tt_add cs1 cs2 = Ok cs &
   [/\ wf_tt cs, tshape (TT cs) = tshape (TT cs1),
       tt_rank cs = [seq (p.1 + p.2)%N | p <- zip (tt_rank cs1) (tt_rank cs2)] &
    forall i, inb (tshape (TT cs1)) i -> den (TT cs) i = den (TT cs1) i + den (TT cs2) i].
Proof.
case: cs1 => [|A0 cs1] //; case/lastP: cs1 => [|M1 A1] // H1 H2 _.
case: cs2 H2 => [|B0 cs2] //; case/lastP: cs2 => [|M2 B1] // H2 /= [E0].
  by move/(congr1 size); rewrite size_map size_rcons.
rewrite !map_rcons => /rcons_inj[ES E1].
move: H1 => /andP[_] /= /and3P[HA0 /eqP SA0 /links_rcons[r1 [L1 HA1 SA1]]].
move: H2 => /andP[_] /= /and3P[HB0 /eqP SB0 /links_rcons[r2 [L2 HB1 SB1]]].
rewrite E0 in SA0; rewrite E1 in SA1.
rewrite (concat2E SA0 SB0) /= !size_rcons /= -!cats1 !take_size_cat // !last_cat /=.
have [ms -> [Lm Sm Rm Gm]] := mids_spec L1 L2 ES.
rewrite /= (concat0E SA1 SB1) /=; set F := tab3 _ _ _ _; set G := tab3 _ _ _ _.
have Lall : links 1 (F :: rcons ms G) 1.
  apply/and3P; split; [exact: nwf_tab|exact: eqxx|].
  by apply: (links_rconsI Lm); [exact: nwf_tab|].
eexists; first by []; split.
- by rewrite cats1; exact: Lall.
- by rewrite /= !map_cat /= Sm E0 E1.
- rewrite /tt_rank /= !map_cat zip_cat; last first.
    by rewrite !size_map; move/(congr1 size): ES; rewrite !size_map.
  rewrite map_cat Rm /=; congr (_ ++ _); last by rewrite /dim SA1 SB1.
  by move: (M1) (M2); elim=> [|? ? IH] [|? ?] //=; rewrite IH.
move=> [|k i] // /andP[Hk]; rewrite cats1 => /inb_rconsP[i' [l [-> Hi Hl]]].
have Ei : size i' = size ms.
  by rewrite (inb_size Hi) size_map; move/(congr1 size): Sm; rewrite !size_map.
have Ei1 : size i' = size M1 by rewrite (inb_size Hi) size_map.
have Ei2 : size i' = size M2.
  by rewrite Ei1; move/(congr1 size): ES; rewrite !size_map.
have D2 : dim F 2 = (dim A0 2 + dim B0 2)%N by [].
rewrite /den !cats1 /= D2 sum_nat_split -!/(chain _ _ _ _).
have Dg : (0 < dim G 2)%N by [].
have DA : (0 < dim A1 2)%N by rewrite /dim SA1.
have DB : (0 < dim B1 2)%N by rewrite /dim SB1.
congr (_ + _); apply: eq_big_nat => x /= Hx; rewrite get_tab3 //; try flia.
- rewrite Hx; congr (_ * _).
  rewrite (chain_rcons _ Lm Ei) ?(chain_rcons _ L1 Ei1) //; last flia.
  rewrite sum_nat_split [X in _ + X]big1_seq ?addr0; last first.
    move=> y /=; rewrite mem_index_iota => /andP[_ Hy].
    by rewrite Gm ?Hx //; [case: ltnP; rewrite ?mul0r//; flia|flia|flia].
  apply: eq_big_nat => y /= Hy; rewrite Gm ?Hx ?Hy //; [|flia|flia].
  by rewrite get_tab3 ?Hy //; flia.
have LL z : (dim A0 2 + z < dim A0 2)%N = false by flia.
rewrite LL addKn; congr (_ * _).
rewrite (chain_rcons _ Lm Ei) ?(chain_rcons _ L2 Ei2) //; last flia.
rewrite sum_nat_split [X in X + _]big1_seq ?add0r; last first.
  move=> y /=; rewrite mem_index_iota => /andP[_ Hy].
  by rewrite Gm ?LL ?Hy ?mul0r //; flia.
apply: eq_big_nat => y /= Hy; rewrite Gm ?LL //; [|flia|flia].
rewrite get_tab3 //; [|flia|by rewrite -E1].
case: ltnP => ?; first by flia.
by rewrite !addKn.
Qed.
End Add.
