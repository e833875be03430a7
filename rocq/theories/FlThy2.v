(* Proofs for property C68, part 2: to_numpy. *)
From Coq Require Import String Ascii.
From mathcomp Require Import all_ssreflect all_algebra.
From mathcomp Require Import zify.
From Verif Require Import Py Nd NdThy Ein Utils Tensor Spec ChainThy TensorThy TensorThy2 FlModel FlSpec FlThy1.
Set Implicit Arguments. Unset Strict Implicit. Unset Printing Implicit Defensive.
Import GRing.Theory Num.Theory Order.TTheory.
Local Open Scope ring_scope.

Section ToNumpy.
Variable R : realDomainType.
Variable u : R.
Hypothesis u0 : 0 <= u.
Notation arr := (nd R).
Notation apx := (apx u).
Implicit Types (cs todo done fs : seq arr) (C d core A : arr).

Lemma map_nabs_dim cs k : [seq dim C k | C <- map (@nabs R) cs] = [seq dim C k | C <- cs].
Proof. by rewrite -map_comp; apply: eq_map. Qed.
Lemma links_nabs a cs b : links a (map (@nabs R) cs) b = links a cs b.
Proof. by elim: cs a => //= C cs IH a; rewrite nwf_nabs dim_nabs IH. Qed.
Lemma lead_rcons A s r : nshape A = rcons s r -> lead A = s.
Proof. by move=> e; rewrite /lead /ndim e take_rcons. Qed.

Lemma fl_tt_fold todo done d d' n r r' : links 1 done r -> nwf d ->
  nshape d = rcons [seq dim C 1 | C <- done] r ->
  (forall i b, inb [seq dim C 1 | C <- done] i -> (b < r)%N ->
     apx n (chain (map (@nabs R) done) i 0 b) (chain done i 0 b) (get d (rcons i b))) ->
  links r todo r' -> fl_fold (fl_tt_step u) d todo d' ->
  [/\ nwf d', nshape d' = rcons [seq dim C 1 | C <- done ++ todo] r' &
     forall i b, inb [seq dim C 1 | C <- done ++ todo] i -> (b < r')%N ->
       apx (n + sumn [seq dim C 0 | C <- todo]) (chain (map (@nabs R) (done ++ todo)) i 0 b)
         (chain (done ++ todo) i 0 b) (get d' (rcons i b))].
Proof.
elim: todo done d n r => [|C todo IH] done d n r Hl Hd Sd Gd /=.
  by move=> /eqP <- ->; rewrite cats0 addn0; split.
case/and3P=> HC /eqP SC Ht [d1 [Hd1 Sd1 Gd1] hf].
have dC : dim C 0 = r by rewrite /dim SC.
rewrite addnA -cat_rcons; apply: (IH (rcons done C) d1 _ (dim C 2)) hf => //.
- exact: links_rconsI Hl HC SC.
- by rewrite Sd1 (lead_rcons Sd) map_rcons -!cats1 -catA.
move=> i b; rewrite !map_rcons => /inb_rconsP[i' [k [-> Hi' Hk]]] Hb.
rewrite (lead_rcons Sd) in Gd1.
rewrite (chain_rcons _ Hl) ?(inb_size Hi') ?size_map //.
rewrite (@chain_rcons _ 1 (map (@nabs R) done) (nabs C) r) ?links_nabs ?(inb_size Hi') ?size_map //.
have -> : rcons (rcons i' k) b = i' ++ [:: k; b] by rewrite -!cats1 -catA.
rewrite -(addn0 n); have := fl_dot_nat u0 (Gd1 _ _ _ Hi' Hk Hb); rewrite dC; apply=> j hj.
  by apply: Gd.
exact: apx_core.
Qed.

Lemma fl_ttP cs a : wf_tt cs -> fl_tt_to_numpy u cs a ->
  [/\ nwf a, nshape a = [seq dim C 1 | C <- cs] & forall i, inb [seq dim C 1 | C <- cs] i ->
     apx (sumn [seq dim C 0 | C <- behead cs]) (chain (map (@nabs R) cs) i 0 0) (chain cs i 0 0) (get a i)].
Proof.
case: cs => [|C0 cs] // /andP[_ Hlk] [d0 [d [Ed0 hf Ea]]].
have := Hlk; rewrite /= => /and3P[HC0 /eqP EC0 Hl].
have P1 : prods (behead (nshape C0)) = prods (nshape C0).
  rewrite {1}EC0 {1}EC0 /=; lia.
have [d0' Ed0' [Hd0 Sd0 Gd0]] := reshape_spec HC0 P1.
move: Ed0'; rewrite Ed0 => -[?]; subst d0'.
have H1 : links 1 [:: C0] (dim C0 2) by rewrite /= HC0 {1}EC0 !eqxx.
have [] := @fl_tt_fold cs [:: C0] d0 d 0 (dim C0 2) 1 H1 Hd0 _ _ Hl hf.
- by rewrite Sd0 EC0.
- move=> i b /= /inb1P[k -> Hk] Hb.
  rewrite -/(chain [:: C0] [:: k] 0 b) -/(chain [:: nabs C0] [:: k] 0 b) !chain1 //=.
  have -> : get d0 [:: k; b] = get C0 [:: 0%N; k; b].
    by apply: Gd0; rewrite {1 2}EC0 /= mul0n add0n.
  exact: apx_core.
move=> Hd Sd Gd; rewrite (lead_rcons Sd) in Ea.
have P2 : prods [seq dim C 1 | C <- [:: C0] ++ cs] = prods (nshape d) by rewrite Sd prods_rcons muln1.
have [a' Ea' [Ha Sa Ga]] := reshape_spec Hd P2.
move: Ea'; rewrite Ea => -[?]; subst a'; split=> // i Hi0; have Hi : inb [seq dim C 1 | C <- [:: C0] ++ cs] i := Hi0.
have -> : get a i = get d (rcons i 0%N).
  by apply: Ga; rewrite Sd ravel_rcons ?muln1 ?addn0 //; have := inb_size Hi.
by have := Gd i 0%N Hi isT; rewrite add0n.
Qed.

Definition cpp cs i x : R := \prod_(p <- zip cs i) get p.1 [:: p.2; x].

Lemma fl_cp_fold todo done d d' n r : nwf d ->
  nshape d = rcons [seq dim C 0 | C <- done] r ->
  (forall i x, inb [seq dim C 0 | C <- done] i -> (x < r)%N ->
     apx n (cpp (map (@nabs R) done) i x) (cpp done i x) (get d (rcons i x))) ->
  all (fun C => nwf C && (nshape C == [:: dim C 0; r])) todo -> fl_fold (fl_cp_step u) d todo d' ->
    [/\ nwf d', nshape d' = rcons [seq dim C 0 | C <- done ++ todo] r &
     forall i x, inb [seq dim C 0 | C <- done ++ todo] i -> (x < r)%N ->
       apx (n + size todo) (cpp (map (@nabs R) (done ++ todo)) i x) (cpp (done ++ todo) i x) (get d' (rcons i x))].
Proof.
elim: todo done d n => [|C todo IH] done d n Hd Sd Gd /=.
  by move=> _ ->; rewrite cats0 addn0.
case/andP=> /andP[HC /eqP SC] Ht [d1 [Hd1 Sd1 Gd1] hf].
have dC : dim C 1 = r by rewrite /dim SC.
rewrite -cat_rcons addnS -addSn; apply: (IH (rcons done C) d1) hf => //.
- by rewrite Sd1 (lead_rcons Sd) map_rcons -!cats1 -catA dC.
move=> i x; rewrite !map_rcons => /inb_rconsP[i' [k [-> Hi' Hk]]] Hx.
rewrite (lead_rcons Sd) dC in Gd1.
have E : size i' = size done by rewrite (inb_size Hi') size_map.
have cr D c : size D = size i' -> cpp (rcons D c) (rcons i' k) x = cpp D i' x * get c [:: k; x].
  by move=> e; rewrite /cpp -!cats1 zip_cat // big_cat /= big_seq1.
rewrite !cr ?size_map //.
have -> : rcons (rcons i' k) x = i' ++ [:: k; x] by rewrite -!cats1 -catA.
apply: apx_rnd (Gd1 _ _ _ Hi' Hk Hx) => //; rewrite -(addn0 n); apply: apx_mul => //; first exact: Gd.
exact: apx_core.
Qed.

Lemma fl_cpP cs a : wf_cp cs -> fl_cp_to_numpy u cs a ->
  [/\ nwf a, nshape a = [seq dim C 0 | C <- cs] & forall i, inb [seq dim C 0 | C <- cs] i ->
     apx ((size cs).-1 + (dim (head (Nd [::] [::]) cs) 1).-1)
       (den (tabs (CP cs)) i) (den (CP cs) i) (get a i)].
Proof.
case: cs => [|C0 cs] // /andP[_] /= /andP[/andP[HC0 /eqP SC0] Hcs] [d hf [Ha Sa Ga]].
have [] := @fl_cp_fold cs [:: C0] C0 d 0 (dim C0 1) HC0 SC0 _ Hcs hf.
  move=> i x /inb1P[k -> Hk] Hx; rewrite /cpp /= !big_seq1; exact: apx_core.
move=> Hd Sd Gd; rewrite (lead_rcons Sd) in Sa Ga; split=> // i Hi0; have Hi : inb [seq dim C 0 | C <- [:: C0] ++ cs] i := Hi0.
have := Ga i Hi; rewrite Sd last_rcons add0n in Gd * => h.
have := fl_sumP u0 h (n := size cs) (m := cpp (map (@nabs R) (C0 :: cs)) i) (x := cpp (C0 :: cs) i).
rewrite size_iota /index_iota subn0; apply=> x; rewrite mem_iota add0n => /andP[_ hx].
by have := Gd i x Hi hx.
Qed.

Definition fpr todo j k : R := \prod_(p <- zip todo (zip j k)) get p.1 [:: p.2.1; p.2.2].

Lemma fl_tucker_fold fs todo done c c' n :
  fs = done ++ todo ->
  all (fun U => nwf U && (nshape U == [:: dim U 0; dim U 1])) todo ->
  nwf c -> prods (nshape c) = (prods [seq dim U 1 | U <- done] * prods [seq dim U 0 | U <- todo])%N ->
  forall (MF F : seq nat -> seq nat -> R),
  (forall i j, inb [seq dim U 1 | U <- done] i -> inb [seq dim U 0 | U <- todo] j ->
    apx n (MF i j) (F i j)
    (nth 0 (ndata c) (ravel [seq dim U 1 | U <- done] i * prods [seq dim U 0 | U <- todo]
       + ravel [seq dim U 0 | U <- todo] j))) ->
  fl_fold (fl_tucker_step u [seq dim U 1 | U <- fs] [seq dim U 0 | U <- fs])
    c (zip (iota (size done) (size todo)) todo) c' ->
   [/\ nwf c', prods (nshape c') = prods [seq dim U 1 | U <- fs] &
    forall i k, inb [seq dim U 1 | U <- done] i -> inb [seq dim U 1 | U <- todo] k ->
      apx (n + sumn [seq dim U 0 | U <- todo])
      (sum_idx [seq dim U 0 | U <- todo] (fun j => MF i j * fpr (map (@nabs R) todo) j k))
      (sum_idx [seq dim U 0 | U <- todo] (fun j => F i j * fpr todo j k))
      (nth 0 (ndata c') (ravel [seq dim U 1 | U <- fs] (i ++ k)))].
Proof.
elim: todo done c n => [|U todo IH] done c n Efs Hwf Hc Pc MF F HF.
  move=> /= ->; rewrite Efs cats0; split=> //; first by rewrite Pc /= muln1.
  move=> i [|? ?] // Hi _ /=; rewrite /fpr /= !big_nil !mulr1 cats0 addn0.
  by have := HF i [::] Hi isT; rewrite /= muln1 addn0.
move: Hwf => /= /andP[/andP[HU /eqP SU] Hwf].
have E1 : take (size done) [seq dim U 1 | U <- fs] = [seq dim U 1 | U <- done].
  by rewrite Efs map_cat take_size_cat ?size_map.
have E2 : nth 0%N [seq dim U 0 | U <- fs] (size done) = dim U 0.
  by rewrite Efs map_cat nth_cat size_map ltnn subnn.
have E3 : drop (size done).+1 [seq dim U 0 | U <- fs] = [seq dim U 0 | U <- todo].
  by rewrite Efs -cat_rcons map_cat drop_size_cat // size_map size_rcons.
case=> T [m Em [HT ST GT]] hf; rewrite E1 E2 E3 in Em ST GT.
set L := prods [seq dim U 1 | U <- done] in Em ST GT; set P := prods [seq dim U 0 | U <- todo] in Em ST GT.
have P1 : prods [:: L; dim U 0; P] = prods (nshape c) by rewrite Pc /= -/P muln1.
have [m' Em' [Hm Sm Gm]] := reshape_spec Hc P1.
have [_ Dm _] := reshape_ok Em.
move: Em'; rewrite Em => -[?]; subst m'.
have [] := @IH (rcons done U) T (n + dim U 0)%N _ Hwf HT _ (fun i' j =>
   \sum_(0 <= x < dim U 0) MF (take (size done) i') (x :: j) * get (nabs U) [:: x; last 0%N i']) (fun i' j =>
   \sum_(0 <= x < dim U 0) F (take (size done) i') (x :: j) * get U [:: x; last 0%N i']) _.
- by rewrite cat_rcons.
- by rewrite ST /= map_rcons prods_rcons -/L -/P muln1 mulnA.
- move=> i' j; rewrite !map_rcons => /inb_rconsP[i [k [-> Hi Hk]]] Hj.
  have Ei := inb_size Hi.
  rewrite ravel_rcons // last_rcons -/P.
  have E4 : ((ravel [seq dim C 1 | C <- done] i * dim U 1 + k) * P +
     ravel [seq dim U0 0 | U0 <- todo] j)%N = ravel (nshape T)
       [:: ravel [seq dim C 1 | C <- done] i; k; ravel [seq dim U0 0 | U0 <- todo] j].
    by rewrite ST /= !muln1 addn0 mulnDl mulnA addnA.
  rewrite E4 -/(get T _).
  have -> : take (size done) (rcons i k) = i.
    by rewrite -cats1 take_size_cat // Ei size_map.
  rewrite -(addn0 n); apply: (fl_dot_nat u0 (GT _ _ _ (ravel_lt Hi) Hk (ravel_lt Hj))) => x hx; last exact: apx_core.
  have := HF i (x :: j) Hi; rewrite /= hx => /(_ Hj); rewrite /get Sm Dm /= -/P.
  by rewrite !muln1 addn0.
- by rewrite size_rcons.
move=> Hc' Pc' Gc'; split=> // i [|k ks] // Hi /andP[Hk Hks].
rewrite -cat_rcons.
have := Gc' (rcons i k) ks; rewrite map_rcons inb_rcons ?(inb_size Hi) // Hi Hk => /(_ isT Hks).
rewrite last_rcons.
have -> : take (size done) (rcons i k) = i.
  by rewrite -cats1 take_size_cat // (inb_size Hi) size_map.
rewrite addnA -!sum_idx_big /=.
have e (G : seq nat -> seq nat -> R) (V : arr) (D : seq arr) :
  sum_idx [seq dim U0 0 | U0 <- todo] (fun j => (\sum_(0 <= x < dim U 0) G i (x :: j) * get V [:: x; k]) * fpr D j ks) =
  sum_idx [seq dim U0 0 | U0 <- todo] (fun j => \sum_(0 <= x < dim U 0) G i (x :: j) * fpr (V :: D) (x :: j) (k :: ks)).
  apply: eq_sum_idx => j Hj; rewrite big_distrl /=; apply: eq_bigr => x _.
  by rewrite /fpr /= big_cons /= mulrA.
by rewrite !e.
Qed.

Lemma fl_tuckerP fs core a : wf_tucker fs core -> fl_tucker_to_numpy u fs core a ->
  [/\ nwf a, nshape a = [seq dim U 1 | U <- fs] & forall i, inb [seq dim U 1 | U <- fs] i ->
    apx (sumn [seq dim U 0 | U <- fs]) (den (tabs (Tucker fs core)) i) (den (Tucker fs core) i) (get a i)].
Proof.
case/and3P=> Hc /eqP Sc Hfs [c' hf Ea].
have [] := @fl_tucker_fold fs fs [::] core c' 0 erefl Hfs Hc _ (fun _ j => get (nabs core) j) (fun _ j => get core j) _ hf.
- by rewrite Sc mul1n.
- move=> [|? ?] // j _ Hj /=; have := @apx_core R u core j; rewrite {3}/get Sc mul0n add0n; exact.
move=> Hc' Pc' Gc'.
have [a' Ea' [Ha Sa Ga]] := reshape_spec Hc' (esym Pc').
move: Ea'; rewrite Ea => -[?]; subst a'.
split=> // i /= Hi.
have := Gc' [::] i isT Hi; rewrite add0n /= Sc.
have E : (ravel [seq dim U 1 | U <- fs] i < prods (nshape c'))%N by rewrite Pc' ravel_lt.
by rewrite (Ga i (unravel (nshape c') (ravel [seq dim U 1 | U <- fs] i))) /get ravelK.
Qed.
End ToNumpy.
