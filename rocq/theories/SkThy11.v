(* Block assembly: _assemble_blocked_stream_sketches *)
From Coq Require Import String Ascii NArith.
From mathcomp Require Import all_ssreflect all_algebra.
From mathcomp Require Import zify.
From Verif Require Import Py Nd NdThy Ein Utils Tensor Hash Sketch Spec ChainThy TensorThy TensorThy2 RoundThy SkSpec SkThy10.
Set Implicit Arguments. Unset Strict Implicit. Unset Printing Implicit Defensive.
Import GRing.Theory.
Local Open Scope ring_scope.

Section Upd.
Variables (T : Type) (x0 : T).
Lemma upd_loop (st : seq T -> nat * T -> res (seq T)) (Ps0 Qs : seq T) n (Z : nat -> T -> T -> Prop) :
  size Ps0 = n -> size Qs = n ->
  (forall Ps mu, size Ps = n -> (mu < n)%N -> nth x0 Ps mu = nth x0 Ps0 mu ->
     exists2 P', st Ps (mu, nth x0 Qs mu) = Ok (take mu Ps ++ P' :: drop mu.+1 Ps) & Z mu (nth x0 Ps0 mu) P') ->
  exists2 Ps, foldM st Ps0 (zip (iota 0 n) Qs) = Ok Ps & size Ps = n /\
    forall mu, (mu < n)%N -> Z mu (nth x0 Ps0 mu) (nth x0 Ps mu).
Proof.
move=> s0 sQ H.
have Zk k : (k <= n)%N -> exists2 Ps, foldM st Ps0 (zip (iota 0 k) (take k Qs)) = Ok Ps & size Ps = n /\
    forall mu, (mu < n)%N -> if (mu < k)%N then Z mu (nth x0 Ps0 mu) (nth x0 Ps mu) else nth x0 Ps mu = nth x0 Ps0 mu.
  elim: k => [|k IH] hk; first by exists Ps0; rewrite ?take0.
  have [|Ps ePs [sPs hPs]] := IH; first exact: ltnW.
  have := hPs k hk; rewrite ltnn => ek.
  have [P' eP' hP'] := H Ps k sPs hk ek.
  exists (take k Ps ++ P' :: drop k.+1 Ps).
    rewrite iotaSr (take_nth x0) ?sQ // zip_rcons; last by rewrite size_iota size_take sQ; clear -hk; case: ltnP; lia.
    by rewrite foldM_rcons ePs.
  rewrite size_cat /= size_drop size_take sPs hk; split; first by clear -hk; lia.
  move=> mu hm; rewrite nth_cat size_take sPs hk; case: (ltngtP mu k) => hmk.
  - by rewrite nth_take // (leq_trans hmk) //; have := hPs mu hm; rewrite hmk.
  - have -> : (mu < k.+1)%N = false by clear -hmk; lia.
    have -> : (mu - k = (mu - k.+1).+1)%N by clear -hmk; lia.
    rewrite /= nth_drop; have -> : (k.+1 + (mu - k.+1) = mu)%N by clear -hmk; lia.
    by have := hPs mu hm; have -> : (mu < k)%N = false by clear -hmk; lia.
  - by rewrite hmk subnn ltnSn /=.
have [|Ps ePs [sPs hPs]] := Zk n; first by [].
exists Ps; first by rewrite -ePs -sQ take_size.
by split=> // mu hm; have := hPs mu hm; rewrite hm.
Qed.
End Upd.

Section Blk.
Variable R : comRingType.
Notation arr := (nd R).
Notation C0 := (C0 R).
Notation container := (container R).

Lemma set_block3E (P Q : arr) A N B l1 l2 r1 r2 : nshape P = [:: A; N; B] -> (l1 <= l2 <= A)%N -> (r1 <= r2 <= B)%N ->
  nshape Q = [:: (l2 - l1)%N; N; (r2 - r1)%N] ->
  exists2 P', set_block3 P l1 l2 r1 r2 Q = Ok P' & [/\ nwf P', nshape P' = [:: A; N; B] &
    forall a k b, (a < A)%N -> (k < N)%N -> (b < B)%N ->
     get P' [:: a; k; b] = if (l1 <= a < l2)%N && (r1 <= b < r2)%N then get Q [:: (a - l1)%N; k; (b - r1)%N] else get P [:: a; k; b]].
Proof.
move=> sP /andP[hl1 hl2] /andP[hr1 hr2] sQ; rewrite /set_block3 /dim sP /=.
have -> : minn l2 A = l2 by clear -hl2; lia. have -> : minn r2 B = r2 by clear -hr2; lia.
rewrite sQ bcasts eqxx; eexists; first by []; split; [exact: nwf_tab|by []|].
move=> a k b ha hk hb; rewrite get_tab ?/= ?ha ?hk ?hb //; case: ifP => // /andP[/andP[h1 h2] /andP[h3 h4]].
by rewrite getb_get // sQ /= hk !andbT /=; apply/andP; split; clear -h1 h2 h3 h4; lia.
Qed.
Lemma set_block2E (P Q : arr) A B l1 l2 r1 r2 : nshape P = [:: A; B] -> (l1 <= l2 <= A)%N -> (r1 <= r2 <= B)%N ->
  nshape Q = [:: (l2 - l1)%N; (r2 - r1)%N] ->
  exists2 P', set_block2 P l1 l2 r1 r2 Q = Ok P' & [/\ nwf P', nshape P' = [:: A; B] &
    forall a b, (a < A)%N -> (b < B)%N ->
     get P' [:: a; b] = if (l1 <= a < l2)%N && (r1 <= b < r2)%N then get Q [:: (a - l1)%N; (b - r1)%N] else get P [:: a; b]].
Proof.
move=> sP /andP[hl1 hl2] /andP[hr1 hr2] sQ; rewrite /set_block2 /dim sP /=.
have -> : minn l2 A = l2 by clear -hl2; lia. have -> : minn r2 B = r2 by clear -hr2; lia.
rewrite sQ bcasts eqxx; eexists; first by []; split; [exact: nwf_tab|by []|].
move=> a b ha hb; rewrite get_tab ?/= ?ha ?hb //; case: ifP => // /andP[/andP[h1 h2] /andP[h3 h4]].
by rewrite getb_get // sQ /= !andbT /=; apply/andP; split; clear -h1 h2 h3 h4; lia.
Qed.

Variables (f g : nat -> seq nat -> nat -> R) (shape : seq nat) (x : seq nat -> R) (ls rs : seq (seq nat)).
Let d := size shape.
Let li i mu := nth 0%N (nth [::] ls i) mu.
Let ri i mu := nth 0%N (nth [::] rs i) mu.
Let lr mu := nth 0%N (last [::] ls) mu.
Let rr mu := nth 0%N (last [::] rs) mu.
Hypothesis d0 : (0 < d)%N.
Hypothesis hls : all (fun l => size l == d.-1) ls.
Hypothesis hrs : all (fun l => size l == d.-1) rs.
(* the slices are non-decreasing *)
Hypothesis lmon : forall i mu, (i.+1 < size ls)%N -> (mu < d.-1)%N -> (li i mu <= li i.+1 mu)%N.
Hypothesis rmon : forall i mu, (i.+1 < size rs)%N -> (mu < d.-1)%N -> (ri i mu <= ri i.+1 mu)%N.

Lemma mono_last (l : seq (seq nat)) i mu :
  (forall i, (i.+1 < size l)%N -> (nth 0 (nth [::] l i) mu <= nth 0 (nth [::] l i.+1) mu)%N) ->
  (i < size l)%N -> (nth 0 (nth [::] l i) mu <= nth 0 (last [::] l) mu)%N.
Proof.
move=> H hi; rewrite -nth_last.
have [k ek] : exists k, (size l).-1 = (i + k)%N by exists ((size l).-1 - i)%N; clear -hi; lia.
have : (i + k < size l)%N by clear -hi ek; lia.
rewrite ek; elim: k {ek} => [|k IH]; rewrite ?addn0 // addnS => h.
by apply: leq_trans (IH (ltnW h)) (H _ h).
Qed.

(* block (i, j): the sketch with windows ls[i]..ls[i+1] and rs[j]..rs[j+1] *)
Definition blk_ok (b : nat * nat * container) : Prop :=
  [/\ (b.1.1.+1 < size ls)%N, (b.1.2.+1 < size rs)%N &
  is_sketch_with (fun mu i c => f mu i (li b.1.1 mu + c)%N) (fun mu j c => g mu j (ri b.1.2 mu + c)%N)
    (fun mu => li b.1.1.+1 mu - li b.1.1 mu)%N (fun mu => ri b.1.2.+1 mu - ri b.1.2 mu)%N shape x b.2].

(* the part of bond mu covered by block i *)
Definition lin i mu a : bool := if mu is m.+1 then (li i m <= a < li i.+1 m)%N else (a == 0%N).
Definition rin j mu b : bool := if (mu < d.-1)%N then (ri j mu <= b < ri j.+1 mu)%N else (b == 0%N).

(* partially filled container: [dn] are the blocks written so far *)
Definition cov (S0 : container) (dn : nat * nat -> bool) : Prop :=
  [/\ size (Psi_cores S0) = d, size (Omega_mats S0) = d.-1,
   forall mu, (mu < d)%N -> let P := nth C0 (Psi_cores S0) mu in
     let r1 := at_left lr 1%N mu in let r2 := at_right rr 1%N d mu in
     [/\ nwf P, nshape P = [:: r1; nth 0%N shape mu; r2] &
       forall i j a k b, dn (i, j) -> lin i mu a -> rin j mu b -> (a < r1)%N -> (k < nth 0%N shape mu)%N -> (b < r2)%N ->
         get P [:: a; k; b] = Psi_of (at_left f (@one_fun R) mu) (at_right g (@one_fun R) d mu) shape x mu a k b] &
   forall mu, (mu < d.-1)%N -> let W := nth C0 (Omega_mats S0) mu in
     [/\ nwf W, nshape W = [:: lr mu; rr mu] &
       forall i j a b, dn (i, j) -> lin i mu.+1 a -> rin j mu b -> (a < lr mu)%N -> (b < rr mu)%N ->
         get W [:: a; b] = Omega_of (f mu) (g mu) shape x mu a b]].

Lemma put_blockE S0 dn b : cov S0 dn -> blk_ok b ->
  exists2 S1, put_block ls rs S0 b = Ok S1 & cov S1 (fun p => (p == b.1) || dn p).
Proof.
case: b => [[i j] blk] [s1 s2 s3 s4] [/= hi hj [t1 t2 t3 t4]]; rewrite -/d in t1 t2 t3 t4.
have si k : (k < size ls)%N -> size (nth [::] ls k) = d.-1 by move=> hk; apply/eqP/(all_nthP [::] hls).
have sj k : (k < size rs)%N -> size (nth [::] rs k) = d.-1 by move=> hk; apply/eqP/(all_nthP [::] hrs).
have hi0 := ltnW hi; have hj0 := ltnW hj.
rewrite /put_block (pygetE [::]) //= (pygetE [::]) //= (pygetE [::]) //= (pygetE [::]) //= t1 t2.
have lle mu : (mu < d.-1)%N -> (li i mu <= li i.+1 mu <= lr mu)%N.
  by move=> hm; rewrite lmon //=; apply: (@mono_last ls) => // k hk; apply: lmon.
have rle mu : (mu < d.-1)%N -> (ri j mu <= ri j.+1 mu <= rr mu)%N.
  by move=> hm; rewrite rmon //=; apply: (@mono_last rs) => // k hk; apply: rmon.
(* the bounds of the written region *)
pose l1 mu := nth 0%N (0%N :: nth [::] ls i) mu. pose l2 mu := nth 0%N (1%N :: nth [::] ls i.+1) mu.
pose r1 mu := nth 0%N (rcons (nth [::] rs j) 0%N) mu. pose r2 mu := nth 0%N (rcons (nth [::] rs j.+1) 1%N) mu.
have el mu a : (a < at_left lr 1%N mu)%N -> lin i mu a = (l1 mu <= a < l2 mu)%N.
  by case: mu => [|mu] //=; rewrite /l1 /l2 /= ltnS leqn0.
have r1E mu : (mu < d)%N -> r1 mu = if (mu < d.-1)%N then ri j mu else 0%N.
  move=> hm; rewrite /r1 nth_rcons sj //; case: ltnP => // h; case: eqP => //; clear -hm h; lia.
have r2E mu : (mu < d)%N -> r2 mu = if (mu < d.-1)%N then ri j.+1 mu else 1%N.
  move=> hm; rewrite /r2 nth_rcons sj //; case: ltnP => // h; case: eqP => //; clear -hm h; lia.
have er mu b : (mu < d)%N -> rin j mu b = (r1 mu <= b < r2 mu)%N.
  by move=> hm; rewrite r1E // r2E // /rin; case: ltnP => // h; rewrite ltnS leqn0.
have [|Ps ePs [sPs hPs]] := @upd_loop arr C0 (fun Ps mP =>
      let: (mu, Q) := mP in
      do P <- pyget Ps mu;
      do a <- pyget (0%N :: nth [::] ls i) mu; do b <- pyget (1%N :: nth [::] ls i.+1) mu;
      do c <- pyget (rcons (nth [::] rs j) 0%N) mu; do e <- pyget (rcons (nth [::] rs j.+1) 1%N) mu;
      do P' <- set_block3 P a b c e Q; pyset Ps mu P') (Psi_cores S0) (Psi_cores blk) d (fun mu P P' =>
   let: A := at_left lr 1%N mu in let: B := at_right rr 1%N d mu in let: N := nth 0%N shape mu in
   [/\ nwf P', nshape P' = [:: A; N; B] &
    forall a k b, (a < A)%N -> (k < N)%N -> (b < B)%N ->
     get P' [:: a; k; b] = if lin i mu a && rin j mu b then get (nth C0 (Psi_cores blk) mu) [:: (a - l1 mu)%N; k; (b - r1 mu)%N] else get P [:: a; k; b]]) s1 t1.
- move=> Ps mu sPs hm ePs.
  have [w1 w2 w3] := s3 mu hm; have [v1 v2 v3] := t3 mu hm.
  rewrite (pygetE C0) ?sPs //= (pygetE 0%N) /= ?si //; last by clear -hm; lia.
  rewrite (pygetE 0%N) /= ?si //; last by clear -hm; lia.
  rewrite (pygetE 0%N) /= ?size_rcons ?sj //; last by clear -hm; lia.
  rewrite (pygetE 0%N) /= ?size_rcons ?sj //; last by clear -hm; lia.
  rewrite -/(l1 mu) -/(l2 mu) -/(r1 mu) -/(r2 mu) ePs.
  have [||||P' -> [p1 p2 p3]] := @set_block3E (nth C0 (Psi_cores S0) mu) (nth C0 (Psi_cores blk) mu) (at_left lr 1%N mu) (nth 0%N shape mu) (at_right rr 1%N d mu) (l1 mu) (l2 mu) (r1 mu) (r2 mu).
  + exact: w2.
  + by case: mu hm {w1 w2 w3 v1 v2 v3 ePs} => [|mu] hm //=; apply: lle; clear -hm; lia.
  + by rewrite r1E // r2E // /at_right; case: ltnP => // h; apply: rle.
  + rewrite v2 r1E // r2E // /at_right; congr [:: _; _; _]; [|by case: ifP].
    by case: (mu).
  rewrite /= /pyset sPs hm; exists P' => //; split=> // a k b ha hk hb.
  by rewrite p3 // el // er.
have [|Os eOs [sOs hOs]] := @upd_loop arr C0 (fun Os mW =>
      let: (mu, Q) := mW in
      do W <- pyget Os mu;
      do a <- pyget (0%N :: nth [::] ls i) mu.+1; do b <- pyget (1%N :: nth [::] ls i.+1) mu.+1;
      do c <- pyget (rcons (nth [::] rs j) 0%N) mu; do e <- pyget (rcons (nth [::] rs j.+1) 1%N) mu;
      do W' <- set_block2 W a b c e Q; pyset Os mu W') (Omega_mats S0) (Omega_mats blk) d.-1 (fun mu P P' =>
   [/\ nwf P', nshape P' = [:: lr mu; rr mu] &
    forall a b, (a < lr mu)%N -> (b < rr mu)%N ->
     get P' [:: a; b] = if lin i mu.+1 a && rin j mu b then get (nth C0 (Omega_mats blk) mu) [:: (a - li i mu)%N; (b - ri j mu)%N] else get P [:: a; b]]) s2 t2.
- move=> Os mu sOs hm eOs.
  have [w1 w2 w3] := s4 mu hm; have [v1 v2 v3] := t4 mu hm.
  have hmd : (mu < d)%N by clear -hm; lia.
  rewrite (pygetE C0) ?sOs //= (pygetE 0%N) /= ?si // (pygetE 0%N) /= ?si //.
  rewrite (pygetE 0%N) /= ?size_rcons ?sj //; last by clear -hm; lia.
  rewrite (pygetE 0%N) /= ?size_rcons ?sj //; last by clear -hm; lia.
  rewrite -/(li i mu) -/(li i.+1 mu) -/(r1 mu) -/(r2 mu) eOs r1E // r2E // hm.
  have [||||P' -> [p1 p2 p3]] := @set_block2E (nth C0 (Omega_mats S0) mu) (nth C0 (Omega_mats blk) mu) (lr mu) (rr mu) (li i mu) (li i.+1 mu) (ri j mu) (ri j.+1 mu).
  + exact: w2.
  + exact: lle.
  + exact: rle.
  + exact: v2.
  rewrite /= /pyset sOs hm; exists P' => //; split=> // a b ha hb.
  by rewrite p3 // /rin hm.
rewrite ePs /= eOs /=; eexists; first by []; split=> //=.
- move=> mu hm; have [p1 p2 p3] := hPs mu hm; split=> // i' j' a k b hd ha' hb' ha hk hb.
  rewrite p3 //; have [w1 w2 w3] := s3 mu hm; have [v1 v2 v3] := t3 mu hm.
  case: ifP => [/andP[ha2 hb2]|hn].
    rewrite v3 //.
    + apply: Psi_of_ext => // [i0 hi0'|j0 hj0'].
        by move: ha2; rewrite /l1; clear; case: mu => [|mu] //= /andP[h1 _]; rewrite subnKC.
      rewrite r1E // /at_right; move: hb2; rewrite /rin; case: ifP => // _ /andP[h1 _]; by rewrite subnKC.
    + move: ha2; rewrite /l1; clear; case: mu => [|mu] /=; first by move/eqP->.
      by rewrite /li => /andP[]; lia.
    + rewrite r1E // /at_right; move: hb2; rewrite /rin; case: ifP => _; last by move/eqP->.
      by case/andP=> h1 h2; clear -h1 h2; lia.
  case/orP: hd => [/eqP[ei ej]|hd]; last exact: w3 hd ha' hb' ha hk hb.
  by rewrite ei ej in ha' hb'; rewrite ha' hb' in hn.
- move=> mu hm; have [p1 p2 p3] := hOs mu hm; split=> // i' j' a b hd ha' hb' ha hb.
  rewrite p3 //; have [w1 w2 w3] := s4 mu hm; have [v1 v2 v3] := t4 mu hm.
  case: ifP => [|hn].
    rewrite /rin hm /= => /andP[/andP[h1 h2] /andP[h3 h4]].
    rewrite v3 //; [|by clear -h1 h2; lia|by clear -h3 h4; lia].
    by apply: Omega_of_ext => // *; rewrite subnKC.
  case/orP: hd => [/eqP[ei ej]|hd]; last exact: w3 hd ha' hb' ha hb.
  rewrite ei ej in ha' hb'; move/negP: hn; case; exact/andP.
Qed.

(* every block is present *)
Lemma coverl mu a : head [::] ls = nseq d.-1 0%N -> (mu < d)%N -> (a < at_left lr 1%N mu)%N ->
  (1 < size ls)%N -> exists2 i, (i.+1 < size ls)%N & lin i mu a.
Proof.
case: mu => [|mu] hh hm /= ha hs; first by exists 0%N; rewrite ?hs //; case: a ha.
have z0 : li 0 mu = 0%N.
  by rewrite /li nth0 hh nth_nseq; case: ifP.
have h0 : (a < li (size ls).-1 mu)%N by rewrite /li nth_last.
have h1 : ((size ls).-1 < size ls)%N by clear -hs; lia.
move: h1 h0; elim: (size ls).-1 => [|n IH] hn h; first by rewrite z0 in h.
by case: (ltnP a (li n mu)) => han; [apply: IH => //; exact: ltnW | exists n => //; rewrite han].
Qed.
Lemma coverr mu b : head [::] rs = nseq d.-1 0%N -> (mu < d)%N -> (b < at_right rr 1%N d mu)%N ->
  (1 < size rs)%N -> exists2 j, (j.+1 < size rs)%N & rin j mu b.
Proof.
rewrite /at_right /rin => hh hm; case: (ltnP mu d.-1) => hd hb hs; last by exists 0%N => //; case: (b) hb.
have z0 : ri 0 mu = 0%N.
  by rewrite /ri nth0 hh nth_nseq; case: ifP.
have h0 : (b < ri (size rs).-1 mu)%N by rewrite /ri nth_last.
have h1 : ((size rs).-1 < size rs)%N by clear -hs; lia.
move: h1 h0; elim: (size rs).-1 => [|n IH] hn h; first by rewrite z0 in h.
by case: (ltnP b (ri n mu)) => han; [apply: IH => //; exact: ltnW | exists n => //; rewrite han].
Qed.

Lemma cov_zero : (0 < size ls)%N -> (0 < size rs)%N ->
  cov (container_zero R shape (last [::] ls) (last [::] rs)) (fun _ => false).
Proof.
move=> sl sr.
have slr : size (last [::] ls) = d.-1.
  by rewrite -nth_last; apply/eqP/(all_nthP [::] hls); clear -sl; lia.
have srr : size (last [::] rs) = d.-1.
  by rewrite -nth_last; apply/eqP/(all_nthP [::] hrs); clear -sr; lia.
have dE : d.-1.+1 = d by clear -d0; lia.
split=> /=.
- by rewrite size_map !size_zip /= size_rcons slr srr dE -/d !minnn.
- by rewrite size_map size_zip slr srr minnn.
- move=> mu hm; rewrite (nth_map ((0%N, 0%N), 0%N)) ?size_zip /= ?size_rcons ?slr ?srr ?dE -/d ?minnn //.
  rewrite nth_zip /= ?size_zip /= ?slr ?size_rcons ?srr ?dE -/d ?minnn //.
  rewrite nth_zip /= ?slr ?dE //; split=> //; first exact: nwf_tab.
  congr [:: _; _; _]; first by case: (mu).
  rewrite nth_rcons srr /at_right; case: ltnP => // h; case: eqP => //; clear -hm h; lia.
- move=> mu hm; rewrite (nth_map (0%N, 0%N)) ?size_zip ?slr ?srr ?minnn // nth_zip ?slr ?srr //.
  by split=> //; exact: nwf_tab.
Qed.

Lemma assemble_blockedE (bs : seq (nat * nat * container)) : (1 < size ls)%N -> (1 < size rs)%N ->
  head [::] ls = nseq d.-1 0%N -> head [::] rs = nseq d.-1 0%N ->
  (forall b, List.In b bs -> blk_ok b) ->
  (forall i j, (i.+1 < size ls)%N -> (j.+1 < size rs)%N -> exists2 b, List.In b bs & b.1 = (i, j)) ->
  exists2 s, assemble_blocked ls rs shape bs = Ok s & is_sketch_with f g lr rr shape x s.
Proof.
move=> sl sr hl hr hb hc.
have -> : assemble_blocked ls rs shape bs = foldM (put_block ls rs) (container_zero R shape (last [::] ls) (last [::] rs)) bs.
  by rewrite /assemble_blocked; case: (ls) sl => [|? ?] //; case: (rs) sr.
have [dn0 edn] : exists dn0 : nat * nat -> bool, dn0 = (fun _ => false) by eexists.
have c0 := @cov_zero (ltnW sl) (ltnW sr); rewrite -edn in c0.
suff [s es [s1 s2 s3 s4]] : exists2 s, foldM (put_block ls rs) (container_zero R shape (last [::] ls) (last [::] rs)) bs = Ok s &
    cov s (fun p => (p \in [seq b.1 | b <- bs]) || dn0 p).
  have hin i j : (i.+1 < size ls)%N -> (j.+1 < size rs)%N -> ((i, j) \in [seq b.1 | b <- bs]) || dn0 (i, j).
    move=> h1 h2; rewrite edn orbF; have [b hb' e] := hc i j h1 h2; rewrite -e.
    by elim: bs hb' {hb hc es s1 s2 s3 s4} => //= b' bs IH [->|/IH h]; rewrite inE ?eqxx ?h ?orbT.
  exists s => //; split=> //.
  - move=> mu hm; have [w1 w2 w3] := s3 mu hm; split=> // a k b ha hk hb'.
    have [i hi li'] := coverl hl hm ha sl; have [j hj rj'] := coverr hr hm hb' sr.
    exact: w3 (hin i j hi hj) li' rj' ha hk hb'.
  - move=> mu hm; have [w1 w2 w3] := s4 mu hm; split=> // a b ha hb'.
    have [|i hi li'] := @coverl mu.+1 a hl _ ha sl; first by clear -hm; lia.
    have [||j hj rj'] := @coverr mu b hr _ _ sr; [by clear -hm; lia | by rewrite /at_right hm |].
    exact: w3 (hin i j hi hj) li' rj' ha hb'.
move: c0; move: (container_zero _ _ _ _); clear edn; elim: bs dn0 hb {hc} => [|b bs IH] dn hb S0 c0 /=.
  by exists S0.
have [S1 -> c1] /= := put_blockE c0 (hb b (or_introl erefl)).
have [b' hb'|s es cs] := IH _ _ _ c1; first by apply: hb; right.
exists s => //; case: cs => s1 s2 s3 s4; split=> // mu hm; [have [w1 w2 w3] := s3 mu hm | have [w1 w2 w3] := s4 mu hm]; split=> //.
- by move=> i j a k b0 h; apply: w3; move: h; rewrite inE -orbA orbCA.
- by move=> i j a b0 h; apply: w3; move: h; rewrite inE -orbA orbCA.
Qed.
End Blk.
