(* Proofs about matrix product operators. *)
From Coq Require Import String Ascii.
From mathcomp Require Import all_ssreflect all_algebra.
From mathcomp Require Import zify.
From Verif Require Import Py Nd Utils Tensor Spec Mpo MpoSpec.
From Verif Require Import NdThy Ein TensorThy TensorThy2 ChainThy SweepThy.
Set Implicit Arguments. Unset Strict Implicit. Unset Printing Implicit Defensive.
Import GRing.Theory.
Local Open Scope ring_scope.

Section Mpo.
Variable R : comRingType.
Notation arr := (nd R).
Implicit Types (M C : arr) (ms cs : seq arr).

Lemma transpose4 M (a b c e : nat) : nshape M = [:: a; b; c; e] ->
  transpose M [:: 0; 2; 1; 3]%N = Ok (tab4 a c b e (fun x y z w => get M [:: x; z; y; w])).
Proof.
move=> h; rewrite /transpose (_ : perm_eq _ _ = true); last by rewrite /ndim h.
rewrite /ndim /dim h /=; congr Ok; apply: tab_ext => x /inb4P[i [j [k [l [-> _ _ _ _]]]]] //=.
Qed.

(* ---- call ---- *)
Definition mul_core M C : arr :=
  tab3 (dim M 0 * dim C 0) (dim M 2) (dim M 3 * dim C 2) (fun x k y =>
    \sum_(0 <= j < dim M 1) get M [:: x %/ dim C 0; j; k; y %/ dim C 2]%N * get C [:: x %% dim C 0; j; y %% dim C 2]%N).

Lemma call_coreE M C (a b c e r n s : nat) : nshape M = [:: a; b; c; e] -> nshape C = [:: r; b; s] ->
  (do MC <- einsum "ijkl,ajb->iaklb" [:: M; C];
   reshape MC [:: (dim MC 0 * dim MC 1)%N; dim MC 2; (dim MC 3 * dim MC 4)%N]) = Ok (mul_core M C).
Proof.
move=> hM hC; rewrite (es_ijkl_ajb hM hC); cbn [bind]; set T := tab5 _ _ _ _ _ _.
have wT : nwf T := nwf_tab _ _.
have sT : nshape T = [:: a; r; c; e; s] by [].
have P : prods [:: (a * r)%N; c; (e * s)%N] = prods (nshape T) by rewrite sT /= !muln1; lia.
rewrite /dim sT /=; have [X -> [wX sX gX]] := reshape_spec wT P; congr Ok.
rewrite /mul_core /dim hM hC /=.
apply: nd_ext => //; first exact: nwf_tab.
move=> x; rewrite sX => /inb3P[u [k [v [-> hu hk hv]]]].
have r0 : (0 < r)%N by case: (r) hu => //; rewrite muln0.
have s0 : (0 < s)%N by case: (s) hv => //; rewrite muln0.
rewrite get_tab3 // (gX _ [:: u %/ r; u %% r; k; v %/ s; v %% s]%N); last first.
  rewrite sT /= !muln1 !addn0.
  rewrite {1}(divn_eq u r) {1}(divn_eq v s); lia.
by rewrite get_tab5 // ?ltn_mod // ltn_divLR.
Qed.

Lemma get_mul M C (a b c e r s : nat) x y k z w : nshape M = [:: a; b; c; e] -> nshape C = [:: r; b; s] ->
  (x < a)%N -> (y < r)%N -> (k < c)%N -> (z < e)%N -> (w < s)%N ->
  get (mul_core M C) [:: x * r + y; k; z * s + w]%N = \sum_(0 <= j < b) get M [:: x; j; k; z] * get C [:: y; j; w].
Proof.
move=> hM hC hx hy hk hz hw; rewrite /mul_core /dim hM hC /= get_tab3 ?flat_lt //.
by rewrite !divnMDl ?modnMDl ?(divn_small hy) ?(divn_small hw) ?addn0 ?(modn_small hy) ?(modn_small hw) //; clear -hy hw; lia.
Qed.

Lemma mpo_callE ms cs a r : mlinks a ms 1 -> links r cs 1 -> mpo_in ms = [seq dim C 1 | C <- cs] ->
  exists2 ys, mpo_call ms cs = Ok ys &
    [/\ links (a * r) ys 1, size ys = size ms, [seq dim C 1 | C <- ys] = mpo_out ms,
        [seq dim C 0 | C <- ys] = [seq (p.1 * p.2)%N | p <- zip [seq dim M 0 | M <- ms] [seq dim C 0 | C <- cs]] &
        forall j x y, inb (mpo_out ms) j -> (x < a)%N -> (y < r)%N ->
          chain ys j (x * r + y) 0 = sum_idx (mpo_in ms) (fun i => mchain ms i j x 0 * chain cs i y 0)].
Proof.
elim: ms cs a r => [|M ms IH] [|C cs] a r //=.
  move=> /eqP -> /eqP -> _; exists [::] => //; split=> // -[|//] [|//] [|//] _ _ _ /=.
  by rewrite mulr1.
move=> /and3P[wM /eqP sM lM] /and3P[wC /eqP sC lC] [e1 e2].
have sC' : nshape C = [:: r; dim M 1; dim C 2] by rewrite e1.
have [ys ey [ly sy dy ry gy]] := IH cs _ _ lM lC e2.
rewrite /mpo_call /= (@call_coreE M C _ _ _ _ _ 0%N _ sM sC') /=; rewrite /mpo_call in ey; rewrite ey /=.
have [d0 d2] : dim M 0 = a /\ dim C 0 = r by rewrite /dim sM sC.
exists (mul_core M C :: ys) => //; split=> /=.
- by rewrite nwf_tab /= /mul_core d0 d2 /= {1}/dim /= eqxx.
- by rewrite sy.
- by rewrite dy.
- by rewrite ry /dim /=.
case=> [|k j] x y //= /andP[hk hj] hx hy.
have -> : dim (mul_core M C) 2 = (dim M 3 * dim C 2)%N by [].
rewrite sum_nat_mul.
transitivity (\sum_(0 <= j0 < dim M 1) \sum_(0 <= z < dim M 3) \sum_(0 <= w < dim C 2)
   sum_idx (mpo_in ms) (fun i => get M [:: x; j0; k; z] * get C [:: y; j0; w] * (mchain ms i j z 0 * chain cs i w 0))).
  rewrite [RHS]exchange_big /=; apply: eq_big_nat => z /andP[_ hz].
  rewrite [RHS]exchange_big /=; apply: eq_big_nat => w /andP[_ hw].
  rewrite (get_mul sM sC') // gy // mulr_suml; apply: eq_bigr => j0 _.
  by rewrite sum_idxZ.
apply: eq_big_nat => j0 /andP[_ hj0]; rewrite /=.
under eq_bigr => z _ do rewrite -sum_idx_big.
rewrite -sum_idx_big; apply: eq_sum_idx => i _; rewrite mulr_suml.
apply: eq_bigr => z _; rewrite mulr_sumr; apply: eq_bigr => w _.
by rewrite mulrACA.
Qed.

(* ---- to_numpy ---- *)
Lemma ell_mpo A M s r n o r' : nwf A -> nshape A = rcons s r -> nshape M = [:: r; n; o; r'] ->
  exists2 d, einsum_ell "Ei,ijkl->Ejkl" A M = Ok d &
  [/\ nwf d, nshape d = rcons (s ++ [:: n; o]) r' &
    forall i k l b, inb s i -> (k < n)%N -> (l < o)%N -> (b < r')%N ->
      get d (rcons (i ++ [:: k; l]) b) = \sum_(0 <= j < r) get A (rcons i j) * get M [:: j; k; l; b]].
Proof.
move=> HA EA EC; rewrite /einsum_ell /ndim EA take_rcons last_rcons.
have P1 : prods [:: prods s; r] = prods (nshape A) by rewrite EA prods_rcons /= muln1.
have [b -> [Hb Eb Gb]] := reshape_spec HA P1.
rewrite /= (es_Ei_ijkl Eb EC) /=; set T := tab4 _ _ _ _ _.
have HT : nwf T := nwf_tab _ _.
have P2 : prods (s ++ [:: n; o; r']) = prods (nshape T) by rewrite prods_cat /= !muln1.
have [d Ed [Hd Sd Gd]] := reshape_spec HT P2.
exists d; first exact: Ed.
split; rewrite ?Sd //; first by rewrite -cats1 -catA.
move=> i k l b' Hi Hk Hl Hb'; have Es := inb_size Hi.
rewrite (Gd _ [:: ravel s i; k; l; b']); last first.
  by rewrite -!cats1 -catA ravel_cat //= !muln1 addn0.
rewrite get_tab4 ?ravel_lt //; apply: eq_big_nat => j /= Hj; congr (_ * _).
by apply: Gb; rewrite EA ravel_rcons //= !muln1 addn0.
Qed.

Lemma mlinks_rconsI a ms b M : mlinks a ms b -> nwf M -> nshape M = [:: b; dim M 1; dim M 2; dim M 3] ->
  mlinks a (rcons ms M) (dim M 3).
Proof.
elim: ms a => [|M' ms IH] a /=; first by move=> /eqP -> -> {1}->; rewrite !eqxx.
by move=> /and3P[-> -> h] wM sM /=; apply: IH.
Qed.

Lemma mchain_rcons a ms b M i j k l (x y : nat) : mlinks a ms b -> size i = size ms -> size j = size ms ->
  (x < a)%N -> (y < dim M 3)%N ->
  mchain (rcons ms M) (rcons i k) (rcons j l) x y = \sum_(0 <= c < b) mchain ms i j x c * get M [:: c; k; l; y].
Proof.
elim: ms a i j x => [|M' ms IH] a [|k' i] [|l' j] x //=.
  move=> /eqP -> _ _ hx hy; rewrite (sum_nat_delta_r (fun c => get M [:: x; k; l; c]) hy).
  rewrite -[LHS](sum_nat_delta (fun c => get M [:: c; k; l; y]) hx).
  by apply: eq_bigr => c _; rewrite eq_sym.
move=> /and3P[_ _ h] [si] [sj] hx hy.
under eq_big_nat => c /andP[_ hc] do rewrite (IH _ _ _ _ h si sj hc hy) mulr_sumr.
rewrite exchange_big /=; apply: eq_bigr => c _; rewrite mulr_suml; apply: eq_bigr => z _.
by rewrite mulrA.
Qed.

Lemma weave_rcons i j k l : size i = size j -> weave (rcons i k) (rcons j l) = weave i j ++ [:: k; l].
Proof. by elim: i j => [|a i IH] [|b j] //= [e]; rewrite IH. Qed.
Lemma size_weave i j : size i = size j -> size (weave i j) = (size i).*2.
Proof. by elim: i j => [|a i IH] [|b j] //= [e]; rewrite IH. Qed.
Lemma inb_weave s t i j : size s = size t -> inb s i -> inb t j -> inb (weave s t) (weave i j).
Proof.
elim: s t i j => [|n s IH] [|m t] [|k i] [|l j] //= [e] /andP[-> hi] /andP[-> hj] /=; exact: IH.
Qed.
Lemma inb_weaveP s t x : size s = size t -> inb (weave s t) x ->
  exists i j, [/\ x = weave i j, inb s i & inb t j].
Proof.
elim: s t x => [|n s IH] [|m t] x //=; first by case: x => // _ _; exists [::], [::].
move=> [e]; case: x => [|k [|l x]] //=; first by rewrite andbF.
by move=> /and3P[hk hl hx]; have [i [j [-> hi hj]]] := IH _ _ e hx; exists (k :: i), (l :: j); rewrite /= hk hl.
Qed.

Lemma size_io ms : size (mpo_in ms) = size (mpo_out ms).
Proof. by rewrite !size_map. Qed.

Lemma mpo_fold todo done d r r' : mlinks 1 done r -> nwf d ->
  nshape d = rcons (weave (mpo_in done) (mpo_out done)) r ->
  (forall i j b, inb (mpo_in done) i -> inb (mpo_out done) j -> (b < r)%N ->
     get d (rcons (weave i j) b) = mchain done i j 0 b) ->
  mlinks r todo r' ->
  exists2 d', foldM (fun d M => einsum_ell "Ei,ijkl->Ejkl" d M) d todo = Ok d' &
    [/\ nwf d', nshape d' = rcons (weave (mpo_in (done ++ todo)) (mpo_out (done ++ todo))) r' &
     forall i j b, inb (mpo_in (done ++ todo)) i -> inb (mpo_out (done ++ todo)) j -> (b < r')%N ->
        get d' (rcons (weave i j) b) = mchain (done ++ todo) i j 0 b].
Proof.
elim: todo done d r => [|M todo IH] done d r Hl Hd Sd Gd /=.
  by move=> /eqP <-; exists d => //; rewrite cats0.
case/and3P=> HM /eqP SM Ht.
have [d' -> [Hd' Sd' Gd']] := ell_mpo Hd Sd SM.
rewrite -cat_rcons; apply: (IH (rcons done M) d' (dim M 3)) => //.
- exact: mlinks_rconsI Hl HM SM.
- by rewrite Sd' /mpo_in /mpo_out !map_rcons weave_rcons // size_io.
move=> i j b; rewrite /mpo_in /mpo_out !map_rcons => /inb_rconsP[i' [k [-> Hi' Hk]]] /inb_rconsP[j' [l [-> Hj' Hl']]] Hb.
have si := inb_size Hi'; have sj := inb_size Hj'; rewrite !size_map in si sj.
rewrite weave_rcons ?si ?sj // Gd' //; last by apply: inb_weave => //; exact: size_io.
rewrite (mchain_rcons _ _ Hl) //.
by apply: eq_big_nat => c /= Hc; rewrite Gd.
Qed.

Lemma mpo_to_numpyE ms : wf_mpo ms ->
  exists2 a, mpo_to_numpy ms = Ok a & [/\ nwf a, nshape a = weave (mpo_in ms) (mpo_out ms) &
    forall i j, inb (mpo_in ms) i -> inb (mpo_out ms) j -> get a (weave i j) = mden ms i j].
Proof.
case: ms => [|M ms] // /andP[_ /= /and3P[HM /eqP SM Hl]].
have P1 : prods (behead (nshape M)) = prods (nshape M) by rewrite {1}SM {1}SM /=; lia.
have [d0 -> [Hd0 Sd0 Gd0]] := reshape_spec HM P1; rewrite /=.
have H1 : mlinks 1 [:: M] (dim M 3) by rewrite /= HM {1}SM !eqxx.
have [] := @mpo_fold ms [:: M] d0 (dim M 3) 1 H1 Hd0 _ _ Hl.
- by rewrite Sd0 SM.
- move=> i j b /= /inb1P[k -> Hk] /inb1P[l -> Hl'] Hb /=.
  rewrite (sum_nat_delta_r (fun c => get M [:: 0%N; k; l; c]) Hb).
  by apply: Gd0; rewrite {1 2}SM /= mul0n add0n.
move=> d -> [Hd Sd Gd] /=.
have P2 : prods (take (ndim d).-1 (nshape d)) = prods (nshape d).
  by rewrite /ndim Sd take_rcons prods_rcons muln1.
have [a -> [Ha Sa Ga]] := reshape_spec Hd P2.
exists a => //; split=> //; first by rewrite Sa /ndim Sd take_rcons.
move=> i j Hi Hj; rewrite /mden -(Gd i j 0%N Hi Hj isT); apply: Ga.
rewrite {1}/ndim Sd take_rcons ravel_rcons ?muln1 ?addn0 //.
by have := inb_size (inb_weave (size_io (M :: ms)) Hi Hj).
Qed.

(* ---- T ---- *)
Definition mflip M : arr := tab4 (dim M 0) (dim M 2) (dim M 1) (dim M 3) (fun x y z w => get M [:: x; z; y; w]).
Lemma mpo_TE ms a b : mlinks a ms b -> mpo_T ms = Ok [seq mflip M | M <- ms] /\ mlinks a [seq mflip M | M <- ms] b /\
  mpo_in [seq mflip M | M <- ms] = mpo_out ms /\ mpo_out [seq mflip M | M <- ms] = mpo_in ms.
Proof.
elim: ms a => [|M ms IH] a //=; move=> /and3P[wM /eqP sM /IH[e [l [h1 h2]]]].
rewrite /mpo_T /= (transpose4 sM) /=; rewrite /mpo_T in e; rewrite e /= l h1 h2 nwf_tab.
have e0 : dim M 0 = a by rewrite /dim sM.
by rewrite /mflip e0 /= eqxx.
Qed.
Lemma mchain_T ms a b i j x y : mlinks a ms b -> inb (mpo_in ms) i -> inb (mpo_out ms) j -> (x < a)%N ->
  mchain [seq mflip M | M <- ms] j i x y = mchain ms i j x y.
Proof.
elim: ms a i j x => [|M ms IH] a [|k i] [|l j] x //= /and3P[wM /eqP sM h] /andP[hk hi] /andP[hl hj] hx.
apply: eq_big_nat => c /andP[_ hc]; rewrite (IH _ _ _ _ h hi hj hc) /mflip get_tab4 //.
by rewrite /dim sM.
Qed.

(* ---- eye ---- *)
Definition eye4 s : arr := tab4 1 s s 1 (fun _ k l _ => (k == l)%:R).
Lemma mpo_eyeE shape : mpo_eye R shape = Ok [seq eye4 s | s <- shape].
Proof.
elim: shape => [|s shape IH] //=; rewrite /mpo_eye /=.
have wE : nwf (eye R s) := nwf_tab _ _.
have sE : nshape (eye R s) = [:: s; s] by [].
have P : prods [:: 1; s; s; 1]%N = prods (nshape (eye R s)) by rewrite sE /=; lia.
rewrite /dim sE /=; have [X -> [wX sX gX]] := reshape_spec wE P; rewrite /=.
rewrite /mpo_eye in IH; rewrite IH /=; congr (Ok (_ :: _)).
apply: nd_ext => //; first exact: nwf_tab.
move=> x; rewrite sX => /inb4P[i [k [l [j [-> hi hk hl hj]]]]]; rewrite get_tab4 //.
case: i hi => // _; case: j hj => // _.
rewrite (gX _ [:: k; l]) /= ?muln1 ?addn0 ?mul0n ?add0n //.
by rewrite /eye get_tab //= hk hl.
Qed.
Lemma eye_links shape : mlinks 1 [seq eye4 s | s <- shape] 1 /\ mpo_in [seq eye4 s | s <- shape] = shape /\
  mpo_out [seq eye4 s | s <- shape] = shape.
Proof. by elim: shape => //= s sh [IH1 [IH2 IH3]]; rewrite IH1 IH2 IH3 (nwf_tab [:: 1; s; s; 1]%N) /dim /= eqxx. Qed.
Lemma eye_chain shape i j : inb shape i -> inb shape j ->
  mchain [seq eye4 s | s <- shape] i j 0 0 = (i == j)%:R.
Proof.
elim: shape i j => [|s sh IH] [|k i] [|l j] //= /andP[hk hi] /andP[hl hj].
rewrite big_nat1 get_tab4 // IH // eqseq_cons; by case: (k == l); rewrite ?mul1r ?mul0r.
Qed.

(* ---- to_tt ---- *)
Lemma mpo_to_ttE ms a b : mlinks a ms b -> exists2 cs, mpo_to_tt ms = Ok cs &
  [/\ links a cs b, [seq dim C 1 | C <- cs] = mpo_shape ms, [seq dim C 0 | C <- cs] = [seq dim M 0 | M <- ms], size cs = size ms &
      forall i j x y, inb (mpo_in ms) i -> inb (mpo_out ms) j -> chain cs (merge_idx (mpo_out ms) i j) x y = mchain ms i j x y].
Proof.
elim: ms a => [|M ms IH] a /=; first by move=> h; exists [::].
move=> /and3P[wM /eqP sM /IH[cs e [l d1 d0 sc g]]].
have e0 : dim M 0 = a by rewrite /dim sM.
have P : prods [:: a; (dim M 1 * dim M 2)%N; dim M 3] = prods (nshape M) by rewrite sM /=; lia.
rewrite /mpo_to_tt /= e0; have [C -> [wC sC gC]] := reshape_spec wM P; rewrite /=.
rewrite /mpo_to_tt in e; rewrite e /=; exists (C :: cs) => //.
have [f0 f1 f2] : [/\ dim C 0 = a, dim C 1 = (dim M 1 * dim M 2)%N & dim C 2 = dim M 3] by rewrite /dim sC.
split=> /=; rewrite ?f0 ?f1 ?f2 ?wC ?sC ?eqxx ?d1 ?d0 ?sc ?e0 //.
case=> [|k i] [|l' j] x y //= /andP[hk hi] /andP[hl hj].
apply: eq_bigr => c _; rewrite g //; congr (_ * _).
by apply: gC; rewrite sM /=; lia.
Qed.
End Mpo.
