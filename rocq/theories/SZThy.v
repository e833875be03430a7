(* The lemma of Schwartz and Zippel for polynomial functions of bounded total degree. *)
From mathcomp Require Import all_ssreflect all_algebra perm zify.
From Verif Require Import ProbSpec.
Set Implicit Arguments. Unset Strict Implicit. Unset Printing Implicit Defensive.
Import GRing.Theory Num.Theory Order.POrderTheory.
Local Open Scope ring_scope.

Section TDeg.
Variables (R : comRingType) (I : eqType).
Notation fn := ((I -> R) -> R).

(* f is a polynomial function of total degree at most D in the variables vs *)
Fixpoint tdeg (vs : seq I) (D : nat) (f : fn) : Prop :=
  match vs with
  | [::] => forall w w', f w = f w'
  | v :: vs' => exists c : nat -> fn,
      (forall w, f w = \sum_(j < D.+1) c j w * w v ^+ j) /\
      forall j, (j <= D)%N -> tdeg vs' (D - j) (c j)
  end.

Lemma tdeg_ext vs D f g : f =1 g -> tdeg vs D f -> tdeg vs D g.
Proof.
case: vs => [|v vs] /= e; first by move=> h w w'; rewrite -!e.
by move=> [c [h1 h2]]; exists c; split=> // w; rewrite -e.
Qed.

Lemma tdeg_local vs D f : tdeg vs D f -> forall w w', {in vs, w =1 w'} -> f w = f w'.
Proof.
elim: vs D f => [|v vs IH] D f /=; first by move=> h w w' _.
move=> [c [h1 h2]] w w' e; rewrite !h1; apply: eq_bigr => j _.
rewrite (e v) ?mem_head //; congr (_ * _); apply: (IH _ _ (h2 j _)); first by rewrite -ltnS.
by move=> x hx; apply: e; rewrite inE hx orbT.
Qed.

Lemma tdeg_const vs D a : tdeg vs D (fun=> a).
Proof.
elim: vs D a => [|v vs IH] D a //=; exists (fun j _ => if j == 0%N then a else 0); split=> [w|j hj].
  rewrite big_ord_recl /= expr0 mulr1 big1 ?addr0 // => j _; by rewrite mul0r.
by case: (j == 0%N).
Qed.

Lemma tdeg_le vs D D' f : (D <= D')%N -> tdeg vs D f -> tdeg vs D' f.
Proof.
elim: vs D D' f => [|v vs IH] D D' f //= le [c [h1 h2]].
exists (fun j w => if (j <= D)%N then c j w else 0); split=> [w|j hj].
  rewrite h1 (big_ord_widen_cond D'.+1 predT (fun j => c j w * w v ^+ j)) //.
  rewrite [in RHS](bigID (fun i : 'I_D'.+1 => (i < D.+1)%N)) /= [X in _ = _ + X]big1 ?addr0.
    by apply: eq_bigr => j hj; rewrite -ltnS hj.
  by move=> j; rewrite ltnS => /negbTE->; rewrite mul0r.
case: leqP => h; last exact: tdeg_const.
apply: IH (h2 j h); exact: leq_sub2r.
Qed.

Lemma tdeg_add vs D f g : tdeg vs D f -> tdeg vs D g -> tdeg vs D (fun w => f w + g w).
Proof.
elim: vs D f g => [|v vs IH] D f g /=; first by move=> h1 h2 w w'; rewrite (h1 w w') (h2 w w').
move=> [c [h1 h2]] [e [h3 h4]]; exists (fun j w => c j w + e j w); split=> [w|j hj].
  by rewrite h1 h3 -big_split; apply: eq_bigr => j _; rewrite mulrDl.
by apply: IH; [apply: h2|apply: h4].
Qed.

Lemma tdeg_sum (J : Type) (r : seq J) (P : pred J) vs D (F : J -> fn) :
  (forall j, P j -> tdeg vs D (F j)) -> tdeg vs D (fun w => \sum_(j <- r | P j) F j w).
Proof.
move=> h; elim: r => [|j r IH].
  by apply: tdeg_ext (tdeg_const vs D 0) => w; rewrite big_nil.
apply: (@tdeg_ext _ _ (fun w => (if P j then F j w else 0) + \sum_(j <- r | P j) F j w)).
  by move=> w; rewrite big_cons; case: (P j); rewrite ?add0r.
apply: tdeg_add IH; case e : (P j); [exact: h|exact: tdeg_const].
Qed.

Lemma tdeg_mul vs D E f g : tdeg vs D f -> tdeg vs E g -> tdeg vs (D + E) (fun w => f w * g w).
Proof.
elim: vs D E f g => [|v vs IH] D E f g /=; first by move=> h1 h2 w w'; rewrite (h1 w w') (h2 w w').
move=> [c [h1 h2]] [e [h3 h4]].
exists (fun m w => \sum_(j < D.+1) \sum_(l < E.+1 | (j + l)%N == m) c j w * e l w); split=> [w|m hm].
  rewrite h1 h3 big_distrl /=.
  under [RHS]eq_bigr do rewrite big_distrl /=.
  rewrite exchange_big /=; apply: eq_bigr => j _; rewrite big_distrr /=.
  under [RHS]eq_bigr do rewrite big_distrl /= big_mkcond /=.
  rewrite exchange_big /=; apply: eq_bigr => l _.
  have hjl : (j + l < (D + E).+1)%N by have := ltn_ord j; have := ltn_ord l; lia.
  rewrite (bigD1 (Ordinal hjl)) //= eqxx big1 ?addr0 => [|i /eqP ne].
    by rewrite exprD mulrACA.
  by case: eqP => // ej; case: ne; apply: val_inj; rewrite /= ej.
apply: tdeg_sum => j _; apply: tdeg_sum => l /eqP ejl.
have -> : (D + E - m = (D - j) + (E - l))%N by have := ltn_ord j; have := ltn_ord l; lia.
by apply: IH; [apply: h2; rewrite -ltnS|apply: h4; rewrite -ltnS].
Qed.

Lemma tdeg_var vs v : v \in vs -> tdeg vs 1 (fun w => w v).
Proof.
elim: vs => [|u vs IH] //=; rewrite inE; case: eqP => [-> _|_ /= h].
  exists (fun j _ => (j == 1%N)%:R); split=> [w|j _]; last exact: tdeg_const.
  by rewrite !big_ord_recr big_ord0 /= add0r mul0r add0r mul1r.
exists (fun j w => if j == 0%N then w v else 0); split=> [w|[|[|j]] //= _]; [|exact: IH|exact: tdeg_const].
by rewrite !big_ord_recr big_ord0 /= add0r mul0r addr0 expr0 mulr1.
Qed.

Lemma tdeg_scale vs D a f : tdeg vs D f -> tdeg vs D (fun w => a * f w).
Proof. by move=> h; rewrite -(add0n D); apply: tdeg_mul h; apply: tdeg_const. Qed.

Lemma tdeg_prod_seq (J : Type) (r : seq J) vs D (F : J -> fn) : (forall j, tdeg vs D (F j)) ->
  tdeg vs (size r * D) (fun w => \prod_(j <- r) F j w).
Proof.
move=> h; elim: r => [|j r IH] /=.
  by apply: tdeg_ext (tdeg_const vs _ 1) => w; rewrite big_nil.
rewrite mulSn; apply: (@tdeg_ext _ _ (fun w => F j w * \prod_(j <- r) F j w)); first by move=> w; rewrite big_cons.
exact: tdeg_mul.
Qed.

Lemma tdeg_det k vs D (F : (I -> R) -> 'M[R]_k) : (forall i j, tdeg vs D (fun w => F w i j)) ->
  tdeg vs (k * D) (fun w => \det (F w)).
Proof.
move=> h; rewrite /determinant; apply: tdeg_sum => s _; apply: tdeg_scale.
have := @tdeg_prod_seq 'I_k (index_enum _) vs D (fun i w => F w i (s i)) (fun i => h _ _).
by have -> : size (index_enum [finType of 'I_k]) = k by rewrite -[index_enum _]enumT -cardE card_ord.
Qed.
End TDeg.

Section SZ.
Variables (R : realFieldType) (I V : finType) (wt : I -> V -> R) (p : R).
Hypotheses (wtP : distributions wt p) (p0 : 0 <= p).
Variable vl : I -> V -> R.
Hypothesis vlP : forall i, injective (vl i).
Notation sample := {ffun I -> V}.
Definition asg (w : sample) : I -> R := fun i => vl i (w i).
Definition mass (w : sample) : R := \prod_i wt i (w i).
Definition upd (w : sample) (v : I) (t : V) : sample := [ffun i => if i == v then t else w i].

Lemma mass_ge0 w : 0 <= mass w.
Proof. by apply: prodr_ge0 => i _; have [/(_ (w i))/andP[]] := wtP i. Qed.

Lemma probE (B : pred sample) : prob wt B = \sum_w mass w * (B w)%:R.
Proof. by rewrite /prob big_mkcond; apply: eq_bigr => w _; case: (B w); rewrite ?mulr1 ?mulr0. Qed.

Lemma mass_upd w v t : mass (upd w v t) * wt v (w v) = mass w * wt v t.
Proof.
rewrite /mass (bigD1 v) //= [in RHS](bigD1 v) //= ffunE eqxx.
rewrite (eq_bigr (fun i => wt i (w i))); last by move=> i ne; rewrite ffunE (negbTE ne).
by rewrite mulrAC [RHS]mulrAC (mulrC (wt v t)).
Qed.

Lemma upd_upd w v t t' : upd (upd w v t) v t' = upd w v t'.
Proof. by apply/ffunP=> i; rewrite !ffunE; case: eqP. Qed.
Lemma upd_id w v : upd w v (w v) = w.
Proof. by apply/ffunP=> i; rewrite !ffunE; case: eqP => [->|]. Qed.
Lemma updv w v t : upd w v t v = t. Proof. by rewrite ffunE eqxx. Qed.

(* drawing the v-th value once more changes nothing *)
Lemma resample v (g : sample -> R) :
  \sum_w mass w * g w = \sum_w mass w * \sum_t wt v t * g (upd w v t).
Proof.
have [_ s1] := wtP v.
transitivity (\sum_w \sum_t (mass w * wt v t) * g w).
  by apply: eq_bigr => w _; rewrite -[LHS]mulr1 -s1 mulr_sumr; apply: eq_bigr => t _; rewrite mulrAC.
transitivity (\sum_w \sum_t (mass w * wt v t) * g (upd w v t)); last first.
  by apply: eq_bigr => w _; rewrite mulr_sumr; apply: eq_bigr => t _; rewrite mulrA.
rewrite !pair_big /=; pose h (x : sample * V) := (upd x.1 v x.2, x.1 v).
have hK : involutive h by move=> [w t]; rewrite /h /= upd_upd updv upd_id.
rewrite (reindex_inj (inv_inj hK)) /=; apply: eq_bigr => [[w t]] _ /=.
by rewrite mass_upd.
Qed.

Lemma mass1 (g : sample -> R) b : (forall w, g w <= b) -> \sum_w mass w * g w <= b.
Proof.
move=> h; apply: (@le_trans _ _ (\sum_w mass w * b)).
  by apply: ler_sum => w _; apply: ler_wpmul2l; [exact: mass_ge0|].
rewrite -mulr_suml.
have -> : \sum_w mass w = 1.
  rewrite /mass -(bigA_distr_bigA (fun i t => wt i t)) /= big1 // => i _; by have [] := wtP i.
by rewrite mul1r.
Qed.

Lemma prob_le (B C : pred sample) : (forall w, B w -> C w) -> prob wt B <= prob wt C.
Proof.
move=> h; rewrite !probE; apply: ler_sum => w _; apply: ler_wpmul2l; first exact: mass_ge0.
by rewrite ler_nat; case e : (B w) => //; rewrite (h w e).
Qed.

Lemma prob_or (B C : pred sample) : prob wt [pred w | B w || C w] <= prob wt B + prob wt C.
Proof.
rewrite !probE -big_split; apply: ler_sum => w _ /=; rewrite -mulrDr; apply: ler_wpmul2l; first exact: mass_ge0.
by rewrite -natrD ler_nat; case: (B w); case: (C w).
Qed.

Lemma prob0 : prob wt pred0 = 0.
Proof. by rewrite probE big1 // => w _; rewrite mulr0. Qed.

(* a nonzero polynomial of degree at most m vanishes with probability at most m p *)
Lemma roots_bound v (P : {poly R}) m : P != 0 -> (size P <= m.+1)%N ->
  \sum_t wt v t * (P.[vl v t] == 0)%:R <= m%:R * p.
Proof.
move=> P0 sP; pose rs := [seq vl v t | t <- enum [pred t | P.[vl v t] == 0]].
have : (size rs < size P)%N.
  apply: max_poly_roots => //; last by rewrite map_inj_uniq ?enum_uniq //; apply: vlP.
  by apply/allP => x /mapP[t]; rewrite mem_enum inE => /eqP e ->; apply/rootP.
rewrite size_map -cardE => h.
have hm : leq #|[pred t | P.[vl v t] == 0]| m by rewrite -ltnS; apply: leq_trans sP.
apply: (@le_trans _ _ (\sum_(t | P.[vl v t] == 0) p)).
  rewrite [X in _ <= X]big_mkcond; apply: ler_sum => t _.
  by have [/(_ t)/andP[h0 h1] _] := wtP v; case: eqP; rewrite ?mulr1 ?mulr0.
rewrite sumr_const -[p *+ _]mulr_natl; apply: (ler_wpmul2r p0); by rewrite ler_nat.
Qed.

Lemma sz vs D (f : (I -> R) -> R) : uniq vs -> tdeg vs D f -> (exists w0, f w0 != 0) ->
  prob wt [pred w | f (asg w) == 0] <= D%:R * p.
Proof.
elim: vs D f => [|v vs IH] D f /=.
  move=> _ h [w0 n0]; apply: (@le_trans _ _ (prob wt pred0)).
    by apply: prob_le => w /=; rewrite (h _ w0) (negbTE n0).
  by rewrite prob0; apply: mulr_ge0 => //; apply: ler0n.
move=> /andP[nv uvs] [c [h1 h2]] [w0 n0].
suff main : forall m, (m <= D.+1)%N -> (forall j, (m <= j <= D)%N -> forall w, c j w = 0) ->
   prob wt [pred w | f (asg w) == 0] <= D%:R * p.
  by apply: (main D.+1) => // j /andP[a b]; move: (leq_trans a b); rewrite ltnn.
elim=> [|m IHm] hm hz.
  by case/eqP: n0; rewrite h1 big1 // => j _; rewrite hz ?mul0r //= -ltnS.
apply: contraT => nb.
have nex : ~ exists w, c m w != 0.
  move=> [w1 n1]; move/negP: nb; apply.
  apply: (@le_trans _ _ (prob wt [pred w | (c m (asg w) == 0) || ((c m (asg w) != 0) && (f (asg w) == 0))])).
    by apply: prob_le => w /= e; case: eqP.
  apply: le_trans (prob_or _ _) _.
  have -> : D%:R * p = (D - m)%:R * p + m%:R * p by rewrite -mulrDl -natrD subnK.
  apply: ler_add; first by apply: IH => //; [apply: h2|exists w1].
  rewrite probE (resample v); apply: mass1 => w.
  have cE j t : (j <= D)%N -> c j (asg (upd w v t)) = c j (asg w).
    move=> hj; apply: (tdeg_local (h2 j hj)) => x hx; rewrite /asg ffunE.
    by case: eqP hx => [->|//]; rewrite (negbTE nv).
  have hmD : (m <= D)%N by [].
  case e : (c m (asg w) == 0).
    rewrite big1 ?mulr_ge0 ?ler0n // => t _; by rewrite /= cE // e mulr0.
  pose P := \poly_(j < m.+1) c j (asg w).
  have P0 : P != 0 by apply/eqP => eP; move/eqP: e; apply; have := coef_poly m.+1 (fun j => c j (asg w)) m; rewrite -/P eP coef0 ltnSn.
  have sP : (size P <= m.+1)%N by apply: size_poly.
  apply: le_trans (roots_bound v P0 sP).
  apply: ler_sum => t _; have [/(_ t)/andP[h0 _] _] := wtP v; apply: ler_wpmul2l => //.
  rewrite ler_nat /= cE // e /=.
  suff -> : f (asg (upd w v t)) = P.[vl v t] by [].
  rewrite h1 horner_poly (big_ord_widen D.+1 (fun j => c j (asg w) * vl v t ^+ j)) //.
  rewrite [in RHS]big_mkcond /=; apply: eq_bigr => j _; rewrite cE; last by rewrite -ltnS.
  rewrite {2}/asg ffunE eqxx ltnS; case: leqP => // hj.
  by rewrite -(cE j t) ?hz ?mul0r //; [rewrite hj /= -ltnS|rewrite -ltnS].
move/negP: nb => nb; case: nb; apply: IHm; first by apply: ltnW.
move=> j /andP[a b] w; move: a; rewrite leq_eqVlt => /orP[/eqP<-|a]; last by apply: hz; rewrite a.
by apply/eqP; apply: contraT => n1; case: nex; exists w.
Qed.
End SZ.
