From Coq Require Import String Ascii NArith.
From mathcomp Require Import all_ssreflect all_algebra.
From mathcomp Require Import zify.
From Verif Require Import Py Nd Utils Tensor TensorNum Sketch Mpo Gmres Spec LinSpec RecSpec SkSpec MpoSpec GmresSpec.
From Verif Require Import NdThy Ein TensorThy TensorThy2 TensorThy3 ChainThy SweepThy RoundThy RoundThy2 TrimThy GmresThy1.
Set Implicit Arguments. Unset Strict Implicit. Unset Printing Implicit Defensive.
Import GRing.Theory Num.Theory.
Local Open Scope ring_scope.

Section RS.
Variable R : rcfType.
Notation arr := (nd R).
Notation tensor := (tensor R).
Notation allpos := (all (fun n => 0 < n)%N).

Lemma pos_ttE (cs : seq arr) : wf_tt cs -> pos_tt cs = allpos (tshape (TT cs)) && allpos (tt_rank cs).
Proof.
case/andP=> _; rewrite /= /tt_rank; elim: cs {1}(1%N) => [|C cs IH] a //= /and3P[_ _ L].
rewrite (IH _ L); case: cs L {IH} => [|D cs] /=; first by move=> /eqP ->; rewrite !andbT.
move=> /and3P[_ /eqP sD _]; rewrite (_ : dim D 0 = dim C 2); last by rewrite /dim sD.
by rewrite -!andbA; congr (_ && _); rewrite ![(0 < dim C 2)%N && _]andbC -!andbA; do 3 congr (_ && _); rewrite andbC.
Qed.

Definition pos_train (s : seq nat) (X : tensor) : bool := if X is TT cs then is_train s X && pos_tt cs else false.
Definition pos_sum (s : seq nat) (X : tensor) : bool := if X is TSum t Xs then [&& t == s, ~~ nilp Xs & all (pos_train s) Xs] else false.

Lemma pos_trainP s X : reflect (exists2 cs, X = TT cs & [/\ wf_tt cs, tshape (TT cs) = s & pos_tt cs]) (pos_train s X).
Proof.
case: X => [a|t i v|cs|cs|ff c|t Xs]; try (by constructor; case).
rewrite /pos_train; apply: (iffP andP) => [[/trainP[cs' [<-] [w e] p]]|[cs' [->] [w e p]]]; first by exists cs.
by split=> //; apply/trainP; exists cs'.
Qed.
Lemma pos_sumP s X : reflect (exists2 Xs, X = TSum s Xs & ~~ nilp Xs /\ all (pos_train s) Xs) (pos_sum s X).
Proof.
by case: X => [a|t i v|cs|cs|ff c|t Xs] /=; try (by constructor; case);
  apply: (iffP and3P) => [[/eqP -> n h]|[Xs' [-> ->] [n h]]]; [exists Xs | split].
Qed.
Lemma pos_sum_train s X : pos_sum s X -> is_train_sum s X.
Proof.
case/pos_sumP=> Xs -> [n h]; apply/train_sumP; exists Xs => //; split=> //.
by apply: sub_all h => Y /pos_trainP[cs -> [w e _]]; apply/trainP; exists cs.
Qed.

Lemma tt_add_pos (cs ds : seq arr) s : (1 < size s)%N -> wf_tt cs -> tshape (TT cs) = s -> pos_tt cs ->
  wf_tt ds -> tshape (TT ds) = s -> pos_tt ds ->
  exists2 es, tt_add cs ds = Ok es & [/\ wf_tt es, tshape (TT es) = s, pos_tt es &
    forall i, inb s i -> den (TT es) i = den (TT cs) i + den (TT ds) i].
Proof.
move=> s1 w e p w' e' p'; have sz : (2 <= size cs)%N by rewrite -(size_map (fun C : arr => dim C 1%N) cs) [map _ _]e.
have [es -> [we se re ge]] := tt_addE w w' sz (etrans e (esym e')); exists es => //; split=> //; rewrite ?se -?e //.
rewrite (pos_ttE we) se re; move: p p'; rewrite (pos_ttE w) (pos_ttE w') => /andP[-> p1] /andP[_ p2] /=.
elim: (tt_rank cs) (tt_rank ds) p1 p2 => [|a l IH] [|b k] //= /andP[ha hl] /andP[hb hk].
by rewrite addn_gt0 ha IH.
Qed.

Variables (qr : arr -> res (arr * arr)) (svd : arr -> res (arr * arr * arr)).
Hypotheses (qrP : qr_contract qr) (svdP : svd_contract svd).

Definition within (s rk : seq nat) (X : tensor) : Prop := exists2 cs, X = TT cs &
  [/\ wf_tt cs, tshape (TT cs) = s, size (tt_rank cs) = (size s).-1 &
      forall k, (k < (size s).-1)%N -> (1 <= nth 0 (tt_rank cs) k <= maxn 1 (nth 0 rk k))%N].

Lemma within_pos s rk cs : allpos s -> within s rk (TT cs) -> pos_tt cs.
Proof.
move=> hs [_ [<-] [w e sr h]]; rewrite (pos_ttE w) e hs /=; apply/(all_nthP 0%N) => k; rewrite sr => hk.
by have /andP[] := h k hk.
Qed.

Lemma process_leq max_rank s rk rk' k : allpos s -> (0 < size s)%N -> process_tt_rank max_rank s false = Ok rk ->
  process_tt_rank max_rank s true = Ok rk' -> size rk' = (size s).-1 /\ (nth 0 rk' k <= nth 0 rk k)%N.
Proof.
move=> hs s0; rewrite /process_tt_rank; case: ifP => //= /norP[_ /negPn /eqP sr] [<-] [<-].
by have [szt h] := trim_le hs s0 sr; rewrite szt; split.
Qed.

Lemma process_true max_rank s rk : process_tt_rank max_rank s false = Ok rk -> exists rk', process_tt_rank max_rank s true = Ok rk'.
Proof. by rewrite /process_tt_rank; case: ifP => //= _ _; eexists. Qed.

Lemma tt_round_within cs eps max_rank s rk : (0 < size s)%N -> wf_tt cs -> tshape (TT cs) = s -> pos_tt cs ->
  process_tt_rank max_rank s false = Ok rk ->
  or_linalg (tt_round qr svd cs eps (Some max_rank) false) (fun out => within s rk (TT out)).
Proof.
move=> s0 w e p hp; have [rk' hp'] := process_true hp.
have hs : allpos s by move: p; rewrite (pos_ttE w) e => /andP[].
have ra : round_args cs (Some max_rank) false by split=> //; exists rk'; rewrite e.
have := @roundP R qr svd qrP svdP cs eps (Some max_rank) false rk' ra; rewrite e => /(_ hp').
move=> h; apply: or_imp h _ => out [wo so _ ho]; exists out => //.
have sc : size cs = size s by rewrite -e size_map.
split=> //; first by rewrite /tt_rank size_map size_behead -so size_map.
move=> k hk; have hk' : (k < (size cs).-1)%N by rewrite sc.
have /andP[-> h] := ho k hk'.
apply: leq_trans h _; have [_ h3] := process_leq k hs s0 hp hp'; by rewrite geq_max leq_maxl /= leq_max h3 orbT.
Qed.

Lemma add_fold s Xs cs : (1 < size s)%N -> wf_tt cs -> tshape (TT cs) = s -> pos_tt cs -> all (pos_train s) Xs ->
  exists2 cs', foldM (fun cs Y => do ds <- cores_of Y; do es <- tt_add cs ds; Ok es) cs Xs = Ok cs' &
   [/\ wf_tt cs', tshape (TT cs') = s, pos_tt cs' & forall i, inb s i -> den (TT cs') i = den (TT cs) i + \sum_(X <- Xs) den X i].
Proof.
move=> s1; elim: Xs cs => [|Y Ys IH] cs w e p.
  by move=> _; exists cs => //; split=> // i hi; rewrite big_nil addr0.
rewrite [foldM _ _ _]/= [all _ _]/= => /andP[/pos_trainP[ds -> [w' e' p']] h].
rewrite [cores_of _]/=; cbn [bind]; have [es -> [we se pe ge]] := tt_add_pos s1 w e p w' e' p'; cbn [bind].
have [cs' -> [w2 s2 p2 g2]] := IH es we se pe h.
by exists cs' => //; split=> // i hi; rewrite g2 // ge // big_cons addrA.
Qed.

Lemma add_all_sum s Xs : (1 < size s)%N -> ~~ nilp Xs -> all (pos_train s) Xs ->
  exists2 cs, add_all (fun cs => Ok cs) Xs = Ok cs & [/\ wf_tt cs, tshape (TT cs) = s, pos_tt cs &
    forall i, inb s i -> den (TT cs) i = \sum_(X <- Xs) den X i].
Proof.
move=> s1; case: Xs => [|X Xs] // _ /andP[/pos_trainP[cs -> [w e p]] h].
have [cs' e' [w' s' p' g']] := add_fold s1 w e p h; exists cs' => //.
by split=> // i hi; rewrite g' // big_cons.
Qed.

Lemma pair_fold s Xs cs eps max_rank rk : (1 < size s)%N -> process_tt_rank max_rank s false = Ok rk ->
  wf_tt cs -> tshape (TT cs) = s -> pos_tt cs -> all (pos_train s) Xs ->
  or_linalg (foldM (fun cs Y => do ds <- cores_of Y; do es <- tt_add cs ds; tt_round qr svd es eps (Some max_rank) false) cs Xs)
   (fun cs' => [/\ wf_tt cs', tshape (TT cs') = s, pos_tt cs' & ~~ nilp Xs \/ within s rk (TT cs) -> within s rk (TT cs')]).
Proof.
move=> s1 hp; have s0 : (0 < size s)%N by clear -s1; lia.
elim: Xs cs => [|Y Ys IH] cs w e p; first by move=> _; split=> // -[].
rewrite [foldM _ _ _]/= [all _ _]/= => /andP[/pos_trainP[ds -> [w' e' p']] h].
rewrite [cores_of _]/=; cbn [bind]; have [es -> [we se pe ge]] := tt_add_pos s1 w e p w' e' p'; cbn [bind].
apply: or_bind (tt_round_within eps s0 we se pe hp) _ => out ho.
have hs : allpos s by move: p; rewrite (pos_ttE w) e => /andP[].
have po := within_pos hs ho; have [_ [<-] [wo so _ _]] := ho.
apply: or_imp (IH out wo so po h) _ => cs' [w2 s2 p2 hw]; split=> // _.
by apply: hw; right.
Qed.

(* ---- oversampling ---- *)
Lemma ceil_mul_gt r p q : (0 < r)%N -> (0 < q)%N -> (q < p)%N -> (r < ceil_mul r (p, q))%N.
Proof. by move=> r0 q0 h; rewrite /ceil_mul /= leq_divRL //; nia. Qed.
Lemma ceil_mul_le r p q : (0 < q)%N -> (p <= q)%N -> (ceil_mul r (p, q) <= r)%N.
Proof. by move=> q0 h; rewrite /ceil_mul /= -ltnS ltn_divLR //; nia. Qed.
End RS.
