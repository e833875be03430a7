(* assemble_sketched_tt: shapes and the least squares equations of the cores. *)
From Coq Require Import String Ascii NArith.
From mathcomp Require Import all_ssreflect all_algebra.
From mathcomp Require Import zify.
From Verif Require Import Py Nd NdThy Ein Utils Tensor Spec LinSpec ChainThy TensorThy2 SweepThy RoundThy Sketch SkSpec SkThy1 SkThy2 SkThy10 SkThy12 RecSpec RecThy1 RecThy2.
Set Implicit Arguments. Unset Strict Implicit. Unset Printing Implicit Defensive.
Import GRing.Theory Num.Theory.
Local Open Scope ring_scope.

Lemma mapM_or (A B : Type) (a0 : A) (b0 : B) (f : A -> res B) l (Q : nat -> B -> Prop) :
  (forall mu, (mu < size l)%N -> or_linalg (f (nth a0 l mu)) (Q mu)) ->
  or_linalg (mapM f l) (fun m => size m = size l /\ forall mu, (mu < size l)%N -> Q mu (nth b0 m mu)).
Proof.
elim: l Q => [|a l IH] Q H /=; first by [].
apply: or_bind (H 0%N erefl) _ => z qz.
apply: or_bind (IH (fun mu => Q mu.+1) _) _ => [mu hm|m [sm hm]]; first exact: (H mu.+1).
by split; [rewrite /= sm | case=> [|mu] h //=; apply: hm].
Qed.

Lemma links_seq (R : comRingType) (r : nat -> nat) (cs : seq (nd R)) n : size cs = n ->
  (forall mu, (mu < n)%N -> nwf (nth (C0 R) cs mu) /\
     nshape (nth (C0 R) cs mu) = [:: r mu; dim (nth (C0 R) cs mu) 1; r mu.+1]) -> links (r 0%N) cs (r n).
Proof.
elim: cs n r => [|C cs IH] [|n] r //= [sz] H.
have [w e] := H 0%N isT; rewrite /= in w e; rewrite w {1}e /= /dim e /= !eqxx /=.
by apply: (IH n (fun mu => r mu.+1) sz) => mu hm; apply: (H mu.+1).
Qed.

Section Asm.
Variable R : rcfType.
Notation arr := (nd R).
Notation C0 := (C0 R).
Variable lstsq : arr -> arr -> res arr.
Hypothesis hl : lstsq_contract lstsq.

Lemma cellR P W l1 n r2 l2 : nwf P -> nshape P = [:: l1; n; r2] -> nwf W -> nshape W = [:: l2; r2] ->
  (0 < l1)%N -> (0 < n)%N -> (0 < r2)%N -> (0 < l2)%N ->
  or_linalg (do M <- reshape P [:: (dim P 0 * dim P 1)%N; dim P 2];
          do M' <- right_mul_pinv lstsq M W;
          reshape M' [:: dim P 0; dim P 1; dim W 0]) (fun C => [/\ nwf C, nshape C = [:: l1; n; l2] &
    forall a k i, (a < l1)%N -> (k < n)%N -> (i < l2)%N ->
     \sum_(0 <= b < r2) get W [:: i; b] * (\sum_(0 <= q < l2) get W [:: q; b] * get C [:: a; k; q] - get P [:: a; k; b]) = 0]).
Proof.
move=> wP sP wW sW p1 p2 p3 p4; rewrite /dim sP sW /=.
have [M -> [[wM sM] gM]] := unfoldL wP sP; rewrite /= /right_mul_pinv.
have tW : is_mat (tr W) r2 l2 by split; [exact: nwf_tab|rewrite (nshape_tr sW)].
have tM : is_mat (tr M) r2 (l1 * n) by split; [exact: nwf_tab|rewrite (nshape_tr sM)].
have := @hl _ _ _ _ _ tW tM p3 p4; rewrite muln_gt0 p1 p2 => /(_ isT).
case: (lstsq _ _) => //= S0 [[wS sS] eS].
have tS : is_mat (tr S0) (l1 * n) l2 by split; [exact: nwf_tab|rewrite (nshape_tr sS)].
have [C -> [wC sC gC]] := foldL tS; split=> // a k i ha hk hi.
have hak := flat_lt ha hk.
rewrite -[RHS](eS i (a * n + k)%N hi hak); apply: eq_big_nat => b /= hb; rewrite (get_tr sW) //.
congr (_ * (_ - _)); last by rewrite (get_tr sM) // gM.
by apply: eq_big_nat => q hq; rewrite (get_tr sW) // gC (get_tr sS).
Qed.

Lemma cellL P W l1 n r2 r1 : nwf P -> nshape P = [:: l1; n; r2] -> nwf W -> nshape W = [:: l1; r1] ->
  (0 < l1)%N -> (0 < n)%N -> (0 < r2)%N -> (0 < r1)%N ->
  or_linalg (do M <- reshape P [:: dim P 0; (dim P 1 * dim P 2)%N];
          do M' <- left_mul_pinv lstsq W M;
          reshape M' [:: dim W 1; dim P 1; dim P 2]) (fun C => [/\ nwf C, nshape C = [:: r1; n; r2] &
    forall i k b, (i < r1)%N -> (k < n)%N -> (b < r2)%N ->
     \sum_(0 <= a < l1) get W [:: a; i] * (\sum_(0 <= q < r1) get W [:: a; q] * get C [:: q; k; b] - get P [:: a; k; b]) = 0]).
Proof.
move=> wP sP wW sW p1 p2 p3 p4; rewrite /dim sP sW /=.
have [M -> [[wM sM] gM]] := unfoldR wP sP; rewrite /= /left_mul_pinv.
have := @hl _ _ _ _ _ (conj wW sW) (conj wM sM) p1 p4; rewrite muln_gt0 p2 p3 => /(_ isT).
case: (lstsq _ _) => //= S0 [hS eS].
have [C -> [wC sC gC]] := foldR hS; split=> // i k b hi hk hb.
rewrite -[RHS](eS i (k * r2 + b)%N hi (flat_lt hk hb)); apply: eq_big_nat => a /= ha.
congr (_ * (_ - _)); last by rewrite gM.
by apply: eq_big_nat => q hq; rewrite gC.
Qed.

Variables (s : seq nat) (x : seq nat -> R) (f g : nat -> seq nat -> nat -> R) (lr rr : nat -> nat) (c : container R).
Notation d := (size s).
Hypothesis d1 : (1 < d)%N.
Hypothesis hc : is_sketch_with f g lr rr s x c.
Hypothesis ps : forall mu, (mu < d)%N -> (0 < nth 0 s mu)%N.
Hypothesis pl : forall mu, (mu < d.-1)%N -> (0 < lr mu)%N.
Hypothesis pr : forall mu, (mu < d.-1)%N -> (0 < rr mu)%N.

Definition asmR (cs : seq arr) : Prop :=
  [/\ links 1 cs 1, [seq dim C 1 | C <- cs] = s, forall mu, (mu < d.-1)%N -> dim (nth C0 cs mu) 2 = lr mu,
      forall mu a k i, (mu < d.-1)%N -> (a < at_left lr 1 mu)%N -> (k < nth 0 s mu)%N -> (i < lr mu)%N ->
        \sum_(0 <= b < rr mu) get (nth C0 (Omega_mats c) mu) [:: i; b] *
          (\sum_(0 <= q < lr mu) get (nth C0 (Omega_mats c) mu) [:: q; b] * get (nth C0 cs mu) [:: a; k; q]
            - get (nth C0 (Psi_cores c) mu) [:: a; k; b]) = 0 &
      nth C0 cs d.-1 = nth C0 (Psi_cores c) d.-1].

Lemma pl' mu : (mu < d)%N -> (0 < at_left lr 1%N mu)%N.
Proof. by case: mu => //= mu hm; apply: pl; clear -hm; lia. Qed.
Lemma pr' mu : (0 < at_right rr 1%N d mu)%N.
Proof. by rewrite /at_right; case: ifP => // h; apply: pr. Qed.

Lemma asmRE : or_linalg (assemble lstsq c DirRight) asmR.
Proof.
case: hc => sP sO hP hO; rewrite /assemble /=.
have szz : size (zip (take (size (Psi_cores c)).-1 (Psi_cores c)) (Omega_mats c)) = d.-1.
  by rewrite size_zip size_takel ?sP ?sO ?minnn //; clear -d1; lia.
set l := zip _ _ in szz *; have hd : (d.-1 < d)%N by clear -d1; lia.
have nl mu : (mu < d.-1)%N -> nth (C0, C0) l mu = (nth C0 (Psi_cores c) mu, nth C0 (Omega_mats c) mu).
  move=> hm; rewrite nth_zip ?nth_take ?sP //.
  by rewrite size_takel ?sP ?sO //; clear -d1; lia.
pose Q mu C := [/\ nwf C, nshape C = [:: at_left lr 1%N mu; nth 0%N s mu; lr mu] &
    forall a k i, (a < at_left lr 1 mu)%N -> (k < nth 0 s mu)%N -> (i < lr mu)%N ->
      \sum_(0 <= b < rr mu) get (nth C0 (Omega_mats c) mu) [:: i; b] *
          (\sum_(0 <= q < lr mu) get (nth C0 (Omega_mats c) mu) [:: q; b] * get C [:: a; k; q]
            - get (nth C0 (Psi_cores c) mu) [:: a; k; b]) = 0].
apply: or_bind; first apply: (@mapM_or _ _ (C0, C0) C0 _ l Q).
  rewrite szz => mu hm; rewrite nl //.
  have hm1 : (mu < d)%N by clear -hm; lia.
  have [wP shP _] := hP mu hm1; have [wW shW _] := hO mu hm.
  have er : at_right rr 1%N d mu = rr mu by rewrite /at_right hm.
  rewrite er in shP; apply: (cellR wP shP wW shW); [exact: pl'|exact: ps|exact: pr|exact: pl].
rewrite szz => m [sm hm].
have -> : pyget (Psi_cores c) (size (Psi_cores c)).-1 = Ok (nth C0 (Psi_cores c) d.-1).
  by rewrite (pygetE C0) ?sP.
have [wP shP _] := hP d.-1 hd; rewrite /= in shP *.
have nm mu : (mu < d.-1)%N -> nth C0 (rcons m (nth C0 (Psi_cores c) d.-1)) mu = nth C0 m mu.
  by move=> hmu; rewrite nth_rcons sm hmu.
have nm1 : nth C0 (rcons m (nth C0 (Psi_cores c) d.-1)) d.-1 = nth C0 (Psi_cores c) d.-1.
  by rewrite nth_rcons sm ltnn eqxx.
have sz : size (rcons m (nth C0 (Psi_cores c) d.-1)) = d by rewrite size_rcons sm prednK //; clear -d1; lia.
pose r mu := at_left (fun m => if (m < d.-1)%N then lr m else 1%N) 1%N mu.
have al mu : (mu < d)%N -> at_left lr 1%N mu = r mu.
  by case: mu => //= mu h; rewrite (_ : (mu < d.-1)%N) //; clear -h; lia.
have shape mu : (mu < d)%N -> nwf (nth C0 (rcons m (nth C0 (Psi_cores c) d.-1)) mu) /\
   nshape (nth C0 (rcons m (nth C0 (Psi_cores c) d.-1)) mu) = [:: r mu; nth 0%N s mu; r mu.+1].
  move=> hmu; have [hd1|hd1] := ltnP mu d.-1.
    by rewrite nm //; have [h1 h2 _] := hm mu hd1; rewrite h1 h2 al //= hd1.
  have -> : mu = d.-1 by clear -hmu hd1; lia.
  by rewrite nm1 wP shP /at_right ltnn al // /= ltnn.
split.
- have e1 : r d = 1%N by rewrite /r; case: (d) d1 => [|n] //= _; rewrite ltnn.
  rewrite -[X in links _ _ X]e1.
  apply: (@links_seq R r _ d sz) => mu hmu; have [h1 h2] := shape mu hmu; by split=> //; rewrite /dim h2.
- apply: (@eq_from_nth _ 0%N); rewrite size_map sz // => mu hmu.
  by rewrite (nth_map C0) ?sz //; have [_ e] := shape mu hmu; rewrite /dim e.
- by move=> mu hmu; rewrite nm //; have [_ e _] := hm mu hmu; rewrite /dim e.
- by move=> mu a k i hmu ha hk hi; rewrite nm //; have [_ _ ->] := hm mu hmu.
by [].
Qed.
End Asm.

Section RecL.
Variable R : comRingType.
Notation arr := (nd R).
Notation C0 := (C0 R).
Notation one_fun := (@one_fun R).
Lemma at_left_rev (A : Type) (u : nat -> A) z d mu : (mu < d)%N -> at_left (fun m => u (d - m.+2)%N) z mu = at_right u z d (d - mu.+1).
Proof.
case: mu => [|mu] hm; rewrite /at_right /=.
  by rewrite (_ : (d - 1 < d.-1)%N = false); [|clear -hm; lia].
by rewrite (_ : (d - mu.+2 < d.-1)%N = true); [|clear -hm; lia].
Qed.
Lemma links_flip2 a cs b k : links a cs b -> (k < size cs)%N ->
  forall x y z, (x < dim (nth C0 cs k) 2)%N -> (y < dim (nth C0 cs k) 1)%N -> (z < dim (nth C0 cs k) 0)%N ->
  get (nth C0 (rev (map (@flipc R) cs)) (size cs - k.+1)) [:: x; y; z] = get (nth C0 cs k) [:: z; y; x].
Proof.
move=> h hk x y z hx hy hz; rewrite nth_rev size_map; last by clear -hk; lia.
have -> : (size cs - (size cs - k.+1).+1 = k)%N by clear -hk; lia.
by rewrite (nth_map C0) // get_tab3.
Qed.

Lemma recoverL (s : seq nat) (x : seq nat -> R) (f g : nat -> seq nat -> nat -> R) (lr rr : nat -> nat)
   (cs : seq arr) (N : nat -> seq nat -> nat -> R) : let d := size s in
  (1 < d)%N -> links 1 cs 1 -> [seq dim C 1 | C <- cs] = s ->
  (forall mu, (mu < d.-1)%N -> dim (nth C0 cs mu) 2 = rr mu) ->
  (forall mu a k b, (mu < d.-1)%N -> (a < lr mu)%N -> (k < nth 0 s mu.+1)%N -> (b < at_right rr 1 d mu.+1)%N ->
     \sum_(0 <= q < rr mu) Omega_of (f mu) (g mu) s x mu a q * get (nth C0 cs mu.+1) [:: q; k; b] =
     Psi_of (f mu) (at_right g one_fun d mu.+1) s x mu.+1 a k b) ->
  (forall k b, (k < nth 0 s 0)%N -> (b < rr 0)%N -> get (nth C0 cs 0) [:: 0%N; k; b] = Psi_of one_fun (g 0%N) s x 0 0 k b) ->
  (forall mu i j, (mu < d.-1)%N -> inb (take mu.+1 s) i -> inb (drop mu.+1 s) j ->
     x (i ++ j) = \sum_(0 <= a < lr mu) N mu i a * sum_idx (take mu.+1 s) (fun i' => f mu i' a * x (i' ++ j))) ->
  forall i, inb s i -> chain cs i 0 0 = x i.
Proof.
move=> d d1 lk dm rk sv fst0 cor i hi.
have sc : size cs = d by rewrite /d -dm size_map.
have sd mu : (mu < d)%N -> [/\ dim (nth C0 cs mu) 0 = at_left rr 1%N mu, dim (nth C0 cs mu) 1 = nth 0%N s mu & dim (nth C0 cs mu) 2 = at_right rr 1%N d mu].
  move=> hm; have [|r1 [h1 h2 _]] := @links_split R 1 cs 1 mu lk; first by rewrite sc ltnW.
  have e1 : at_left rr 1%N mu = r1.
    case: mu hm h1 {h2} => [|mu] hm /=; first by rewrite take0 /= => /eqP.
    rewrite (take_nth C0) ?sc; last by clear -hm; lia.
    by move/links_rcons=> [r' [_ _ e]]; rewrite -rk; [rewrite /dim e|clear -hm; lia].
  move: h2; rewrite (drop_nth C0) ?sc //= => /and3P[_ /eqP e _]; split.
  - by rewrite e1 {1}/dim e.
  - by rewrite -dm (nth_map C0) ?sc.
  - rewrite /at_right; case: ltnP => hd; first exact: rk.
    have em : mu = d.-1 by clear -hm hd; lia.
    move: lk; rewrite -{1}(take_size cs) sc -(prednK (n := d)) -?em; last by clear -d1; lia.
    by rewrite (take_nth C0) ?sc // => /links_rcons[r' [_ _ e']]; rewrite /dim e'.
rewrite -(chain_flip lk) ?dm // -{2}[i]revK.
have := @recover R (rev s) (fun i => x (rev i)) (fun mu i => g (d - mu.+2)%N (rev i)) (fun mu j => f (d - mu.+2)%N (rev j))
  (fun mu => rr (d - mu.+2)%N) (fun mu => lr (d - mu.+2)%N) (rev (map (@flipc R) cs)) (fun mu b j => N (d - mu.+2)%N (rev j) b).
rewrite size_rev -/d; apply=> //; last by rewrite inb_rev.
- exact: links_flip lk.
- by rewrite map_rev -map_comp; congr (rev _); rewrite -[RHS]dm; apply: eq_map => C.
- move=> mu hm; rewrite nth_rev size_map sc; last by clear -hm; lia.
  rewrite (nth_map C0) ?sc; last by clear -hm; lia.
  rewrite /= /dim /=; have [|-> _ _] := sd (d - mu.+1)%N; first by clear -hm; lia.
  have -> : (d - mu.+1 = (d - mu.+2).+1)%N by clear -hm; lia.
  by [].
- move=> mu a k b hm ha hk hb; have hmd : (mu < d)%N by clear -hm; lia.
  set m := (d - mu.+2)%N in hb *; have em : (d - mu.+1 = m.+1)%N by rewrite /m; clear -hm; lia.
  have hm2 : (m < d.-1)%N by rewrite /m; clear -hm; lia.
  rewrite (at_left_rev rr 1%N hmd) em in ha; rewrite nth_rev // -/d em in hk.
  have hm3 : (m.+1 < d)%N by clear -hm2; lia.
  have mE : mu = (d - m.+2)%N by rewrite /m; clear -hm; lia.
  have sz : size cs = d := sc.
  have [d0 d2 d3] := sd m.+1 hm3.
  rewrite -[RHS](_ : Psi_of (f m) (at_right g one_fun d m.+1) s x (d - mu.+1) b k a = _); last first.
    rewrite -(Psi_of_rev _ _ _ _ _ _ hmd); apply: Psi_of_ext => //; rewrite ?size_rev ?nth_rev // -/d ?em // => i' hi'.
    by rewrite -em -(at_left_rev g one_fun hmd); case: (mu).
  rewrite em -(sv m) //; apply: eq_big_nat => q hq.
  have -> : mu = (size cs - m.+2)%N by rewrite sc /m; clear -hm; lia.
  rewrite (links_flip2 lk) ?sc ?d0 ?d2 ?d3 // mulrC; congr (_ * _).
  have -> : (d - m.+2 = mu)%N by rewrite /m; clear -hm; lia.
  rewrite /m Omega_of_rev //; clear -hm; rewrite -/d; lia.
- move=> mu i' j' hm; set m := (d - mu.+2)%N => hi' hj'.
  have hm2 : (m < d.-1)%N by rewrite /m; clear -hm; lia.
  have e1 : (size s - mu.+1 = m.+1)%N by rewrite /m -/d; clear -hm; lia.
  move: hi' hj'; rewrite take_rev drop_rev e1 => hi' hj'.
  rewrite rev_cat (cor m) //; [|by rewrite -inb_rev revK..].
  apply: eq_bigr => a _; rewrite mulrC; congr (_ * _); rewrite sum_idx_rev; apply: eq_sum_idx => i1 _.
  by rewrite revK rev_cat revK mulrC.
- move=> a k ha hk; have hd : (d.-1 < d)%N by clear -d1; lia.
  have e0 : (d - d.-1.+1 = 0)%N by clear -d1; lia.
  have e2 : (d - d.-2.+2 = 0)%N by clear -d1; lia.
  rewrite e2 in ha *; rewrite nth_rev -/d ?e0 // in hk.
  have [h0 h1 h2] := sd 0%N (ltn_trans (ltn0Sn 0) d1).
  have e3 : at_right rr 1%N d 0%N = rr 0%N by rewrite /at_right; case: ifP => //; clear -d1; lia.
  have -> : d.-1 = (size cs - 1)%N by rewrite sc subn1.
  rewrite (links_flip2 lk) ?sc ?h0 ?h1 ?h2 ?e3 //; last by clear -d1; lia.
  rewrite fst0 // -[RHS](_ : Psi_of one_fun (g 0%N) s x (d - d.-1.+1) 0 k a = _); first by rewrite e0.
  by rewrite -(Psi_of_rev _ _ _ _ _ _ hd) subn1.
Qed.
End RecL.
