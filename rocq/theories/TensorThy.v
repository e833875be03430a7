(* Proofs about to_numpy in every format (tensor.py). *)
From Coq Require Import String Ascii.
From mathcomp Require Import all_ssreflect all_algebra.
From mathcomp Require Import zify.
From Verif Require Import Py Nd NdThy Ein Utils Tensor Spec ChainThy.
Set Implicit Arguments. Unset Strict Implicit. Unset Printing Implicit Defensive.
Import GRing.Theory.
Local Open Scope ring_scope.

Section Pre.
Variable R : ringType.
Implicit Types A : nd R.

Lemma reshape_tab A s : nwf A -> prods s = prods (nshape A) ->
  reshape A s = Ok (tab s (fun i => get A (unravel (nshape A) (ravel s i)))).
Proof.
move=> HA E; rewrite reshapeE //; congr Ok.
apply: nd_ext; rewrite ?nwf_tab ?nwf_reshape // => i /= Hi.
rewrite get_tab //; apply: get_reshape; rewrite ravelK //.
by rewrite -E ravel_lt.
Qed.

Lemma reshape_spec A s : nwf A -> prods s = prods (nshape A) ->
  exists2 b, reshape A s = Ok b & [/\ nwf b, nshape b = s &
    forall i j, ravel s i = ravel (nshape A) j -> get b i = get A j].
Proof.
move=> HA E; exists (Nd s (ndata A)); first by rewrite reshapeE.
by split=> //; [exact: nwf_reshape | move=> i j; apply: get_reshape].
Qed.

Lemma ravel_rcons s n i k : size i = size s ->
  ravel (rcons s n) (rcons i k) = (ravel s i * n + k)%N.
Proof. by move=> H; rewrite -!cats1 ravel_cat //= !muln1 addn0. Qed.

Lemma prods_rcons s n : prods (rcons s n) = (prods s * n)%N.
Proof. by rewrite -cats1 prods_cat /= muln1. Qed.

Lemma take_rcons (T : Type) (s : seq T) x : take (size (rcons s x)).-1 (rcons s x) = s.
Proof. by rewrite size_rcons /= -cats1 take_size_cat. Qed.

Lemma inb_rconsP s n x : inb (rcons s n) x ->
  exists i k, [/\ x = rcons i k, inb s i & (k < n)%N].
Proof.
rewrite -cats1 => /inb_catP[i [j [-> Hi /inb1P[k -> Hk]]]].
by exists i, k; split; rewrite ?cats1.
Qed.

Lemma ell_tt A C s r n r' : nwf A -> nshape A = rcons s r -> nshape C = [:: r; n; r'] ->
  exists2 d, einsum_ell "Ej,jkl->Ekl" A C = Ok d &
  [/\ nwf d, nshape d = rcons (rcons s n) r' &
    forall i k l, inb s i -> (k < n)%N -> (l < r')%N ->
      get d (rcons (rcons i k) l) = \sum_(0 <= j < r) get A (rcons i j) * get C [:: j; k; l]].
Proof.
move=> HA EA EC; rewrite /einsum_ell /ndim EA take_rcons last_rcons.
have P1 : prods [:: prods s; r] = prods (nshape A).
  by rewrite EA prods_rcons /= muln1.
have [b -> [Hb Eb Gb]] := reshape_spec HA P1.
rewrite /= (es_Ej_jkl Eb EC) /=; set T := tab3 _ _ _ _.
have HT : nwf T := nwf_tab _ _.
have P2 : prods (s ++ [:: n; r']) = prods (nshape T).
  by rewrite prods_cat /= !muln1.
have [d Ed [Hd Sd Gd]] := reshape_spec HT P2.
exists d; first exact: Ed.
split; rewrite ?Sd //; first by rewrite -cats1 -cats1 -catA.
move=> i k l Hi Hk Hl.
have Es := inb_size Hi.
rewrite (Gd _ [:: ravel s i; k; l]); last first.
  by rewrite -!cats1 -catA ravel_cat //= !muln1 addn0 .
rewrite get_tab3 ?ravel_lt //; apply: eq_big_nat => j /= Hj; congr (_ * _).
by apply: Gb; rewrite EA ravel_rcons //= !muln1 addn0.
Qed.

Lemma ell_cp A C s r n : nwf A -> nshape A = rcons s r -> nshape C = [:: n; r] ->
  exists2 d, einsum_ell "Ej,ij->Eij" A C = Ok d &
  [/\ nwf d, nshape d = rcons (rcons s n) r &
    forall i k j, inb s i -> (k < n)%N -> (j < r)%N ->
      get d (rcons (rcons i k) j) = get A (rcons i j) * get C [:: k; j]].
Proof.
move=> HA EA EC; rewrite /einsum_ell /ndim EA take_rcons last_rcons.
have P1 : prods [:: prods s; r] = prods (nshape A).
  by rewrite EA prods_rcons /= muln1.
have [b -> [Hb Eb Gb]] := reshape_spec HA P1.
rewrite /= (es_Ej_ij Eb EC) /=; set T := tab3 _ _ _ _.
have HT : nwf T := nwf_tab _ _.
have P2 : prods (s ++ [:: n; r]) = prods (nshape T).
  by rewrite prods_cat /= !muln1.
have [d Ed [Hd Sd Gd]] := reshape_spec HT P2.
exists d; first exact: Ed.
split; rewrite ?Sd //; first by rewrite -cats1 -cats1 -catA.
move=> i k j Hi Hk Hj.
have Es := inb_size Hi.
rewrite (Gd _ [:: ravel s i; k; j]); last first.
  by rewrite -!cats1 -catA ravel_cat //= !muln1 addn0 .
rewrite get_tab3 ?ravel_lt //; congr (_ * _).
by apply: Gb; rewrite EA ravel_rcons //= !muln1 addn0.
Qed.
End Pre.

Section ToNumpy.
Variable R : comRingType.
Notation arr := (nd R).
Implicit Types (cs todo done fs : seq arr) (C d core : arr).

Lemma size_chain_shape cs : size [seq dim C 1 | C <- cs] = size cs.
Proof. by rewrite size_map. Qed.

Lemma tt_fold todo done d r r' : links 1 done r -> nwf d ->
  nshape d = rcons [seq dim C 1 | C <- done] r ->
  (forall i b, inb [seq dim C 1 | C <- done] i -> (b < r)%N ->
     get d (rcons i b) = chain done i 0 b) ->
  links r todo r' ->
  exists2 d', foldM (fun d C => einsum_ell "Ej,jkl->Ekl" d C) d todo = Ok d' &
    [/\ nwf d', nshape d' = rcons [seq dim C 1 | C <- done ++ todo] r' &
     forall i b, inb [seq dim C 1 | C <- done ++ todo] i -> (b < r')%N ->
        get d' (rcons i b) = chain (done ++ todo) i 0 b].
Proof.
elim: todo done d r => [|C todo IH] done d r Hl Hd Sd Gd /=.
  by move=> /eqP <-; exists d => //; rewrite cats0.
case/and3P=> HC /eqP SC Ht.
have [d' -> [Hd' Sd' Gd']] := ell_tt Hd Sd SC.
rewrite -cat_rcons; apply: (IH (rcons done C) d' (dim C 2)) => //.
- exact: links_rconsI Hl HC SC.
- by rewrite Sd' map_rcons.
move=> i b; rewrite map_rcons => /inb_rconsP[i' [k [-> Hi' Hk]]] Hb.
rewrite Gd' // (chain_rcons _ Hl) ?(inb_size Hi') ?size_map //.
by apply: eq_big_nat => l /= Hl'; rewrite Gd.
Qed.

(* C01 *)
Lemma tt_to_numpyE cs : wf_tt cs ->
  exists2 a, tt_to_numpy cs = Ok a & represents a (TT cs).
Proof.
case: cs => [|C0 cs] // /andP[_ Hlk]; rewrite /represents /=.
have := Hlk; rewrite /= => /and3P[HC0 /eqP EC0 Hl].
have P1 : prods (behead (nshape C0)) = prods (nshape C0).
  rewrite {1}EC0 {1}EC0 /=; lia.
have [d0 -> [Hd0 Sd0 Gd0]] := reshape_spec HC0 P1; rewrite /=.
have H1 : links 1 [:: C0] (dim C0 2) by rewrite /= HC0 {1}EC0 !eqxx.
have [] := @tt_fold cs [:: C0] d0 (dim C0 2) 1 H1 Hd0 _ _ Hl.
- by rewrite Sd0 EC0.
- move=> i b /= /inb1P[k -> Hk] Hb; rewrite -/(chain [:: C0] [:: k] 0 b) chain1 //=.
  by apply: Gd0; rewrite {1 2}EC0 /= mul0n add0n.
move=> d -> [Hd Sd Gd] /=.
have P2 : prods (take (ndim d).-1 (nshape d)) = prods (nshape d).
  by rewrite /ndim Sd take_rcons prods_rcons muln1.
have [a -> [Ha Sa Ga]] := reshape_spec Hd P2.
exists a => //; split=> //.
  by rewrite Sa /ndim Sd take_rcons.
move=> i Hi; have Hi' : inb [seq dim C 1 | C <- [:: C0] ++ cs] i := Hi.
have /= <- := Gd i 0%N Hi isT; apply: Ga.
by rewrite {1}/ndim Sd take_rcons ravel_rcons ?muln1 ?addn0 //; have := inb_size Hi'.
Qed.


(* C02 *)
Lemma cp_fold todo done d r : nwf d ->
  nshape d = rcons [seq dim C 0 | C <- done] r ->
  (forall i x, inb [seq dim C 0 | C <- done] i -> (x < r)%N ->
     get d (rcons i x) = \prod_(p <- zip done i) get p.1 [:: p.2; x]) ->
  all (fun C => nwf C && (nshape C == [:: dim C 0; r])) todo ->
  exists2 d', foldM (fun d C => einsum_ell "Ej,ij->Eij" d C) d todo = Ok d' &
    [/\ nwf d', nshape d' = rcons [seq dim C 0 | C <- done ++ todo] r &
     forall i x, inb [seq dim C 0 | C <- done ++ todo] i -> (x < r)%N ->
        get d' (rcons i x) = \prod_(p <- zip (done ++ todo) i) get p.1 [:: p.2; x]].
Proof.
elim: todo done d => [|C todo IH] done d Hd Sd Gd /=.
  by exists d => //; rewrite cats0.
case/andP=> /andP[HC /eqP SC] Ht.
have [d' -> [Hd' Sd' Gd']] := ell_cp Hd Sd SC.
rewrite -cat_rcons; apply: (IH (rcons done C) d') => //.
- by rewrite Sd' map_rcons.
move=> i x; rewrite map_rcons => /inb_rconsP[i' [k [-> Hi' Hk]]] Hx.
have E : size i' = size done by rewrite (inb_size Hi') size_map.
by rewrite Gd' // Gd // -!cats1 zip_cat // big_cat /= big_seq1.
Qed.

Lemma cp_to_numpyE cs : wf_cp cs ->
  exists2 a, cp_to_numpy cs = Ok a & represents a (CP cs).
Proof.
case: cs => [|C0 cs] // /andP[_] /= /andP[/andP[HC0 /eqP SC0] Hcs].
have [] := @cp_fold cs [:: C0] C0 (dim C0 1) HC0 SC0 _ Hcs.
  by move=> i x /inb1P[k -> Hk] Hx; rewrite /= big_seq1.
move=> d -> [Hd Sd Gd] /=; exists (sum_last d) => //.
rewrite /sum_last /ndim Sd take_rcons last_rcons.
split; rewrite ?nwf_tab // => i Hi; rewrite get_tab // sumrE.
by apply: eq_big_nat => x /= Hx; rewrite Gd.
Qed.

(* C03 *)
Definition tucker_body (shape rank : seq nat) (c : arr) (iU : nat * arr) : res arr :=
      let: (i, U) := iU in
      let left_dim := prods (take i shape) in
      let right_dim := prods (drop i.+1 rank) in
      do core_mat <- reshape c [:: left_dim; nth 0%N rank i; right_dim];
      einsum "ijk,jl->ilk" [:: core_mat; U].

Lemma tucker_fold fs todo done c :
  fs = done ++ todo ->
  all (fun U => nwf U && (nshape U == [:: dim U 0; dim U 1])) todo ->
  nwf c -> prods (nshape c) = (prods [seq dim U 1 | U <- done] * prods [seq dim U 0 | U <- todo])%N ->
  forall (F : seq nat -> seq nat -> R),
  (forall i j, inb [seq dim U 1 | U <- done] i -> inb [seq dim U 0 | U <- todo] j ->
    nth 0 (ndata c) (ravel [seq dim U 1 | U <- done] i * prods [seq dim U 0 | U <- todo]
       + ravel [seq dim U 0 | U <- todo] j) = F i j) ->
  exists2 c', foldM (tucker_body [seq dim U 1 | U <- fs] [seq dim U 0 | U <- fs])
    c (zip (iota (size done) (size todo)) todo) = Ok c' &
   [/\ nwf c', prods (nshape c') = prods [seq dim U 1 | U <- fs] &
    forall i k, inb [seq dim U 1 | U <- done] i -> inb [seq dim U 1 | U <- todo] k ->
      nth 0 (ndata c') (ravel [seq dim U 1 | U <- fs] (i ++ k)) =
      sum_idx [seq dim U 0 | U <- todo] (fun j =>
        F i j * \prod_(p <- zip todo (zip j k)) get p.1 [:: p.2.1; p.2.2])].
Proof.
elim: todo done c => [|U todo IH] done c Efs Hwf Hc Pc F HF.
  exists c => //; rewrite Efs cats0; split=> //; first by rewrite Pc /= muln1.
  move=> i [|? ?] // Hi _ /=; rewrite big_nil mulr1 -HF //= muln1 addn0 !cats0.
  by [].
move: Hwf => /= /andP[/andP[HU /eqP SU] Hwf].
have E1 : take (size done) [seq dim U 1 | U <- fs] = [seq dim U 1 | U <- done].
  by rewrite Efs map_cat take_size_cat ?size_map.
have E2 : nth 0%N [seq dim U 0 | U <- fs] (size done) = dim U 0.
  by rewrite Efs map_cat nth_cat size_map ltnn subnn.
have E3 : drop (size done).+1 [seq dim U 0 | U <- fs] = [seq dim U 0 | U <- todo].
  by rewrite Efs -cat_rcons map_cat drop_size_cat // size_map size_rcons.
rewrite {1}/tucker_body E1 E2 E3.
set L := prods [seq _ | _ <- done]; set P := prods [seq _ | _ <- todo].
have P1 : prods [:: L; dim U 0; P] = prods (nshape c) by rewrite Pc /= -/P muln1.
have [m Em [Hm Sm Gm]] := reshape_spec Hc P1.
have [_ Dm _] := reshape_ok Em; rewrite Em /= (es_ijk_jl Sm SU) /=.
set T := tab3 _ _ _ _.
have HT : nwf T := nwf_tab _ _.
have [] := @IH (rcons done U) T _ Hwf HT _ (fun i' j =>
   \sum_(0 <= x < dim U 0) F (take (size done) i') (x :: j) * get U [:: x; last 0%N i']).
- by rewrite cat_rcons.
- by rewrite /= map_rcons prods_rcons -/L -/P muln1 mulnA.
- move=> i' j; rewrite map_rcons => /inb_rconsP[i [k [-> Hi Hk]]] Hj.
  have Ei := inb_size Hi.
  rewrite ravel_rcons // last_rcons -/P.
  have E4 : ((ravel [seq dim C 1 | C <- done] i * dim U 1 + k) * P +
     ravel [seq dim U0 0 | U0 <- todo] j)%N = ravel (nshape T)
       [:: ravel [seq dim C 1 | C <- done] i; k; ravel [seq dim U0 0 | U0 <- todo] j].
    by rewrite /= !muln1 addn0 mulnDl mulnA addnA.
  rewrite E4 -/(get T _) get_tab3 ?ravel_lt //.
  apply: eq_big_nat => x /= Hx; congr (_ * _).
  have -> : take (size done) (rcons i k) = i.
    by rewrite -cats1 take_size_cat // Ei size_map.
  rewrite -HF //= ?Hx //.
  rewrite /get Sm /= -/P Dm; congr (nth 0 (ndata c) _).
  by rewrite !muln1 addn0.
move=> c' Ec' [Hc' Pc' Gc']; exists c'; first by rewrite size_rcons in Ec'.
split=> // i [|k ks] // Hi /andP[Hk Hks].
rewrite -cat_rcons Gc' //; last first.
  by rewrite map_rcons inb_rcons ?(inb_size Hi) // Hi.
rewrite last_rcons.
have -> : take (size done) (rcons i k) = i.
  by rewrite -cats1 take_size_cat // (inb_size Hi) size_map.
rewrite -sum_idx_big; apply: eq_sum_idx => j Hj; rewrite big_distrl /=.
apply: eq_bigr => x _; rewrite big_cons /= mulrA; congr (_ * _).
Qed.

Lemma tucker_to_numpyE fs core : wf_tucker fs core ->
  exists2 a, tucker_to_numpy fs core = Ok a & represents a (Tucker fs core).
Proof.
case/and3P=> Hc /eqP Sc Hfs.
have [] := @tucker_fold fs fs [::] core erefl Hfs Hc _ (fun _ j => get core j).
- by rewrite Sc mul1n.
- by move=> [|? ?] // j _ Hj; rewrite /get Sc.
move=> c' Ec' [Hc' Pc' Gc']; rewrite /tucker_to_numpy /tucker_rank.
rewrite -/(tucker_body _ _) Ec' /=.
have [a -> [Ha Sa Ga]] := reshape_spec Hc' (esym Pc').
exists a => //; split=> // i /= Hi.
have := Gc' [::] i isT Hi; rewrite /= Sc => <-.
have E : (ravel [seq dim U 1 | U <- fs] i < prods (nshape c'))%N by rewrite Pc' ravel_lt.
by rewrite (Ga i (unravel (nshape c') (ravel [seq dim U 1 | U <- fs] i))) /get ravelK.
Qed.
End ToNumpy.
