(* For random cores the rank condition fails only with small probability. *)
From Coq Require Import String Ascii NArith.
From mathcomp Require Import all_ssreflect all_algebra.
From mathcomp Require Import zify.
From Verif Require Import Py Nd NdThy Ein Utils Tensor Spec LinSpec ChainThy Rng Random Sketch SkSpec RecSpec RecThy2 SkThy1 RoundThy RankThy ProbSpec SZThy GenericSpec GenericThy1 GenericThy2 GenericThy3.
Set Implicit Arguments. Unset Strict Implicit. Unset Printing Implicit Defensive.
Import GRing.Theory Num.Theory.
Local Open Scope ring_scope.

Section Pair.
Variables (R : rcfType) (T B : nat) (state : N -> nat -> N).
Notation arr := (nd R).
Notation C0 := (C0 R).
Variables (s : seq nat) (x : seq nat -> R) (lk rk : seq nat) (sl sr : N).
Let d := size s.
Variable words : seq N.
Notation pos := (position words T B).
Notation vs := (enum [finType of pos]).
Hypotheses (d1 : (1 < d)%N) (slk : size lk = d.-1) (srk : size rk = d.-1).
Hypotheses (pl : all (fun n => 0 < n)%N lk) (pr : all (fun n => 0 < n)%N rk).
Hypotheses (T0 : (0 < T)%N) (uw : uniq words).
Hypotheses (hBl : forall mu, (mu < d)%N -> (asz s lk mu <= B)%N) (hBr : forall mu, (mu < d)%N -> (asz (rev s) (rev rk) mu <= B)%N).
Hypothesis hl : forall mu, (mu < d.-1)%N -> (\rank (unfolding s x mu) <= nth 0 lk mu)%N.
Hypothesis hr : forall mu, (mu < d.-1)%N -> (\rank (unfolding s x mu) <= nth 0 rk mu)%N.

Definition csL (w : pos -> R) := [seq core_of T state (gen_of w) s lk sl mu | mu <- iota 0 d.-1].
Definition csR (w : pos -> R) := [seq core_of T state (gen_of w) (rev s) (rev rk) sr mu | mu <- iota 0 d.-1].
Definition fL w mu i c := chain (take mu.+1 (csL w)) i 0 c.
Definition gR w mu j c := chain (take (d - mu.+1) (csR w)) (rev j) 0 c.
Definition Lm w mu := fmat (take mu.+1 s) (fL w mu) (nth 0%N lk mu).
Definition Rm w mu := fmat (drop mu.+1 s) (gR w mu) (nth 0%N rk mu).
Definition Om w mu := (Lm w mu)^T *m unfolding s x mu *m Rm w mu.
Definition XR w mu := unfolding s x mu *m Rm w mu.

Lemma Lm_tdeg mu p c : (mu < d.-1)%N -> tdeg vs mu.+1 (fun w => Lm w mu p c).
Proof.
move=> hm; apply: (@tdeg_ext _ _ _ _ (fun w => chain [seq core_of T state (gen_of w) s lk sl mu | mu <- iota 0 mu.+1] (unravel (take mu.+1 s) p) 0 c)).
  move=> w; rewrite mxE /fL /csL -map_take; congr (chain (map _ _) _ _ _).
  by rewrite take_iota; congr iota; symmetry; apply/minn_idPl.
apply: (tdeg_chain (r2 := fun mu => nth 0%N (lk ++ [:: 1%N]) mu)) => // k idx; exact: core_tdeg.
Qed.
Lemma Rm_tdeg mu q c : (mu < d.-1)%N -> tdeg vs (d - mu.+1) (fun w => Rm w mu q c).
Proof.
move=> hm; apply: (@tdeg_ext _ _ _ _ (fun w => chain [seq core_of T state (gen_of w) (rev s) (rev rk) sr mu | mu <- iota 0 (d - mu.+1)] (rev (unravel (drop mu.+1 s) q)) 0 c)).
  move=> w; rewrite mxE /gR /csR -map_take; congr (chain (map _ _) _ _ _).
  by rewrite take_iota; congr iota; symmetry; apply/minn_idPl; clear -hm; lia.
apply: (tdeg_chain (r2 := fun mu => nth 0%N (rev rk ++ [:: 1%N]) mu)) => // k idx; exact: core_tdeg.
Qed.
Lemma XR_tdeg mu p c : (mu < d.-1)%N -> tdeg vs (d - mu.+1) (fun w => XR w mu p c).
Proof.
move=> hm; apply: (@tdeg_ext _ _ _ _ (fun w => \sum_q unfolding s x mu p q * Rm w mu q c)).
  by move=> w; rewrite mxE.
by apply: tdeg_sum => q _; apply: tdeg_scale; apply: Rm_tdeg.
Qed.
Lemma Om_tdeg mu a b : (mu < d.-1)%N -> tdeg vs d (fun w => Om w mu a b).
Proof.
move=> hm; have -> : d = (mu.+1 + (d - mu.+1))%N by clear -hm; lia.
apply: (@tdeg_ext _ _ _ _ (fun w => \sum_p Lm w mu p a * XR w mu p b)).
  move=> w; rewrite /Om -mulmxA -/(XR w mu); move: (XR w mu) (Lm w mu) => Y L.
  by rewrite mxE; apply: eq_bigr => p _; rewrite mxE.
by apply: tdeg_sum => p _; apply: tdeg_mul; [apply: Lm_tdeg|apply: XR_tdeg].
Qed.

(* ---- a good value ---- *)
Lemma links_shape m (cs : seq arr) r k : links m cs r -> (k < size cs)%N ->
  nwf (nth C0 cs k) /\ nshape (nth C0 cs k) = [:: (if k is k'.+1 then dim (nth C0 cs k') 2 else m); dim (nth C0 cs k) 1; dim (nth C0 cs k) 2].
Proof.
elim: cs m k => [|C cs IH] m k //= /and3P[w /eqP e l]; case: k => [|k] /= hk; first by rewrite -e.
by have [h1 h2] := IH _ k l hk; split=> //; rewrite {1}h2; case: k hk {h1 h2}.
Qed.

Lemma rev_fac mu r : (mu < d.-1)%N -> bond_fac s mu r x -> bond_fac (rev s) (d - mu.+2) r (fun i => x (rev i)).
Proof.
move=> hm [f [g e]]; exists (fun i c => g c (rev i)), (fun c j => f (rev j) c) => i j.
have -> : (d - mu.+2).+1 = (d - mu.+1)%N by clear -hm; lia.
rewrite take_rev drop_rev -/d subKn; last by clear -hm; lia.
move=> hi hj; rewrite rev_cat e; [|by rewrite -inb_rev revK..].
by apply: eq_bigr => c _; rewrite mulrC.
Qed.

Definition tgt (s0 rk0 : seq nat) (cs : seq arr) mu : arr :=
  if (mu < d.-1)%N then nth C0 cs mu else tab [:: ra rk0 mu; nth 0%N s0 mu; nth 0%N (rk0 ++ [:: 1%N]) mu] (fun=> 0).

Lemma tgt_ok s0 rk0 (cs : seq arr) mu : size rk0 = d.-1 -> size s0 = d -> size cs = d.-1 -> links 1 cs (ra rk0 d.-1) ->
  [seq dim C 1 | C <- cs] = take d.-1 s0 -> [seq dim C 2 | C <- cs] = take d.-1 rk0 -> (mu < d)%N ->
  nwf (tgt s0 rk0 cs mu) /\ nshape (tgt s0 rk0 cs mu) = [:: ra rk0 mu; nth 0%N s0 mu; nth 0%N (rk0 ++ [:: 1%N]) mu].
Proof.
move=> sk ss sc lc e1 e2 hm; rewrite /tgt; case: ltnP => h; last by split=> //; exact: nwf_tab.
have g1 k : (k < d.-1)%N -> dim (nth C0 cs k) 1 = nth 0%N s0 k.
  by move=> hk; have := congr1 (fun l => nth 0%N l k) e1; rewrite (nth_map C0) ?sc // nth_take.
have g2 k : (k < d.-1)%N -> dim (nth C0 cs k) 2 = nth 0%N rk0 k.
  by move=> hk; have := congr1 (fun l => nth 0%N l k) e2; rewrite (nth_map C0) ?sc // nth_take.
have [|h1 h2] := links_shape lc (k := mu); first by rewrite sc.
split=> //; rewrite {1}h2 g1 // g2 // nth_cat sk h; congr (_ :: _).
by case: (mu) h => //= k hk; rewrite g2 // ltnW.
Qed.

Lemma ra_pos rk0 mu : size rk0 = d.-1 -> all (fun n => 0 < n)%N rk0 -> (mu < d)%N -> (0 < ra rk0 mu)%N.
Proof.
move=> sk hp hm; case: mu hm => //= mu hm; apply: (all_nthP 0%N hp); rewrite sk; clear -hm; lia.
Qed.

Lemma right_interface : exists cR : seq arr, forall (w0 : pos -> R) o, (o + d <= size words)%N ->
  (forall mu, (mu < d)%N -> nth N0 words (o + mu) = state sr mu) ->
  (forall (a : 'I_(size words)) b c mu, (mu < d)%N -> nat_of_ord a = (o + mu)%N -> w0 (a, b, c) = aim T (rev s) (rev rk) (tgt (rev s) (rev rk) cR) mu b c) ->
  forall mu, (mu < d.-1)%N -> exists M, unfolding s x mu = M *m (Rm w0 mu)^T.
Proof.
have srs : size (rev s) = d by rewrite size_rev.
have srr : size (rev rk) = d.-1 by rewrite size_rev.
have prr : all (fun n => 0 < n)%N (rev rk) by rewrite all_rev.
have hr' mu : (mu < (size (rev s)).-1)%N -> (\rank (unfolding (rev s) (fun i => x (rev i)) mu) <= nth 0 (rev rk) mu)%N.
  rewrite srs => hm; apply/bond_rankP; have hm' : (d - mu.+2 < d.-1)%N by clear -hm; lia.
  have -> : mu = (d - (d - mu.+2).+2)%N by clear -hm; lia.
  apply: rev_fac => //; apply/bond_rankP; rewrite nth_rev ?srk; last by clear -hm; lia.
  have -> : (d.-1 - (d - (d - mu.+2).+2).+1 = d - mu.+2)%N by clear -hm; lia.
  exact: hr.
have [|cR []] := interface (x := fun i => x (rev i)) _ hr' (leqnn _); rewrite srs // => scR lcR eR1 eR2 hR.
exists cR => w0 o ho hw hv mu hm.
have eR : csR w0 = cR.
  apply: (@eq_from_nth _ C0); rewrite size_map size_iota ?scR // => nu hn; have hd : (nu < d)%N by clear -hn; lia.
  rewrite (nth_map 0%N) ?size_iota // nth_iota // add0n.
  have [h1 h2] := tgt_ok srr srs scR lcR eR1 eR2 hd.
  rewrite (@steer R T B state words w0 (rev s) (rev rk) sr (tgt (rev s) (rev rk) cR) nu (o + nu)) ?hBr ?ra_pos ?hw //; first by rewrite /tgt hn.
  - by clear -hd ho; lia.
  by move=> a b c ea; apply: hv.
have [|M eM] := hR (d - mu.+1)%N; first by clear -hm; lia.
exists (\matrix_(p, c) M c (rev (unravel (take mu.+1 s) p))).
apply/matrixP => p q; rewrite mxE mxE.
have := eM (rev (unravel (drop mu.+1 s) q)) (rev (unravel (take mu.+1 s) p)).
rewrite take_rev drop_rev -/d subKn; last by clear -hm; lia.
rewrite !inb_rev !inb_unravel // -rev_cat revK => -> //.
have -> : ra (rev rk) (d - mu.+1) = nth 0%N rk mu.
  have -> : (d - mu.+1 = (d - mu.+2).+1)%N by clear -hm; lia.
  rewrite /= nth_rev srk; last by clear -hm; lia.
  by congr nth; clear -hm; lia.
by rewrite big_mkord; apply: eq_bigr => c _; rewrite !mxE /gR eR mulrC.
Qed.

Lemma left_interface : exists cL : seq arr, forall (w0 : pos -> R), (d <= size words)%N ->
  (forall mu, (mu < d)%N -> nth N0 words mu = state sl mu) ->
  (forall (a : 'I_(size words)) b c mu, (mu < d)%N -> nat_of_ord a = mu -> w0 (a, b, c) = aim T s lk (tgt s lk cL) mu b c) ->
  forall mu, (mu < d.-1)%N -> exists N, unfolding s x mu = Lm w0 mu *m N.
Proof.
have [cL [scL lcL eL1 eL2 hL]] := interface slk hl (leqnn _).
exists cL => w0 ho hw hv mu hm.
have eL : csL w0 = cL.
  apply: (@eq_from_nth _ C0); rewrite size_map size_iota ?scL // => nu hn; have hd : (nu < d)%N by clear -hn; lia.
  rewrite (nth_map 0%N) ?size_iota // nth_iota // add0n.
  have [h1 h2] := tgt_ok slk erefl scL lcL eL1 eL2 hd.
  rewrite (@steer R T B state words w0 s lk sl (tgt s lk cL) nu nu) ?hBl ?ra_pos ?hw //; first by rewrite /tgt hn.
  - by clear -hd ho; lia.
  by move=> a b c ea; apply: hv.
have [|N eN] := hL mu.+1; first by [].
exists (\matrix_(c, q) N c (unravel (drop mu.+1 s) q)).
apply/matrixP => p q; rewrite mxE eN ?inb_unravel // mxE big_mkord; apply: eq_bigr => c _.
by rewrite !mxE /fL eL.
Qed.

Lemma good_right : words = [seq state sr mu | mu <- iota 0 d] -> exists w0 : pos -> R, forall mu, (mu < d.-1)%N ->
  \rank (XR w0 mu) = \rank (unfolding s x mu).
Proof.
move=> ew; have [cR h] := right_interface.
pose w0 (v : pos) : R := let: (a, b, c) := v in aim T (rev s) (rev rk) (tgt (rev s) (rev rk) cR) a b c.
exists w0 => mu hm; have sw : size words = d by rewrite ew size_map size_iota.
have [|nu hn|a b c nu hn ea|M eX] := h w0 0%N _ _ _ _ hm.
- by rewrite sw.
- by rewrite ew (nth_map 0%N) ?size_iota // nth_iota.
- by rewrite /w0 ea.
exact: rank_right eX.
Qed.

Lemma good_draw : words = [seq state sl mu | mu <- iota 0 d] ++ [seq state sr mu | mu <- iota 0 d] ->
  exists w0 : pos -> R, forall mu, (mu < d.-1)%N -> \rank (Om w0 mu) = \rank (unfolding s x mu).
Proof.
move=> ew; have [cL hL] := left_interface; have [cR hR] := right_interface.
pose w0 (v : pos) : R := let: (a, b, c) := v in
  if (a < d)%N then aim T s lk (tgt s lk cL) a b c else aim T (rev s) (rev rk) (tgt (rev s) (rev rk) cR) (a - d) b c.
have szw : size words = (d + d)%N by rewrite ew size_cat !size_map !size_iota.
have nlt mu : (d + mu < d)%N = false by clear; lia.
exists w0 => mu hm.
have [|nu hn|a b c nu hn ea|M eX2] := hR w0 d _ _ _ _ hm.
- by rewrite szw.
- by rewrite ew nth_cat size_map size_iota nlt addKn (nth_map 0%N) ?size_iota // nth_iota.
- by rewrite /w0 ea nlt addKn.
have [|nu hn|a b c nu hn ea|N eX1] := hL w0 _ _ _ _ hm.
- by rewrite szw leq_addr.
- by rewrite ew nth_cat size_map size_iota hn (nth_map 0%N) ?size_iota // nth_iota.
- by rewrite /w0 ea hn.
exact: rank_gram2 eX1 eX2.
Qed.
End Pair.
