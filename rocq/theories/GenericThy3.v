(* The cores of a TensorTrainDRM as polynomial functions of the random numbers. *)
From Coq Require Import String Ascii NArith.
From mathcomp Require Import all_ssreflect all_algebra.
From mathcomp Require Import zify.
From Verif Require Import Py Nd NdThy Ein Utils Tensor Spec LinSpec ChainThy Rng Random Sketch SkSpec RecSpec RecThy2 SkThy1 RoundThy ProbSpec SZThy GenericSpec GenericThy1.
Set Implicit Arguments. Unset Strict Implicit. Unset Printing Implicit Defensive.
Import GRing.Theory Num.Theory.
Local Open Scope ring_scope.

Section Poly.
Variables (R : rcfType) (I : eqType) (vs : seq I).
Notation arr := (nd R).
Notation asgn := (I -> R).

Lemma tdeg_sum_idx s D (F : seq nat -> asgn -> R) : (forall i, tdeg vs D (F i)) ->
  tdeg vs D (fun w => sum_idx s (fun i => F i w)).
Proof.
move=> h; elim: s F h => [|n s IH] F h /=; first exact: h.
by apply: tdeg_sum => k _; apply: (IH (fun i => F (k :: i))).
Qed.

Lemma tdeg_chain (C : nat -> asgn -> arr) (r2 : nat -> nat) :
  (forall mu w, dim (C mu w) 2 = r2 mu) -> (forall mu idx, tdeg vs 1 (fun w => get (C mu w) idx)) ->
  forall m k i a b, tdeg vs m (fun w => chain [seq C mu w | mu <- iota k m] i a b).
Proof.
move=> hd he; elim=> [|m IH] k [|j i] a b; try exact: tdeg_const.
rewrite -[m.+1]add1n.
apply: (@tdeg_ext _ _ _ _ (fun w => \sum_(0 <= l < r2 k) get (C k w) [:: a; j; l] * chain [seq C mu w | mu <- iota k.+1 m] i l b)).
  by move=> w /=; rewrite hd.
by apply: tdeg_sum => l _; apply: tdeg_mul; [apply: he|apply: IH].
Qed.
End Poly.

Notation asz := core_size.
Section Cores.
Variables (R : rcfType) (T B : nat) (state : N -> nat -> N) (words : seq N).
Notation arr := (nd R).
Notation pos := (position words T B).
Notation vs := (enum [finType of pos]).
Notation C0 := (C0 R).

Definition core_of (g : N -> nat -> nat -> R) (s rk : seq nat) (seed : N) (mu : nat) : arr :=
  let st := rng_step (asz s rk mu) T in
  Nd [:: ra rk mu; nth 0%N s mu; nth 0%N (rk ++ [:: 1%N]) mu]
     [seq g (state seed mu) (c %/ st)%N (c %% st)%N / Num.sqrt (ra rk mu)%:R | c <- iota 0 (asz s rk mu)].

Lemma drm_coresE g qr s rk seed : (0 < size s)%N -> size rk = (size s).-1 ->
  drm_cores g T state qr s rk seed = [seq core_of g s rk seed mu | mu <- iota 0 (size s)].
Proof.
move=> s0 sr; rewrite /drm_cores /tt_random /=.
have -> : process_tt_rank (RTuple rk) s false = Ok rk by rewrite /process_tt_rank; move: s0; rewrite lt0n => /negbTE->; rewrite sr eqxx.
cbn [bind]; rewrite (_ : mapM _ _ = Ok [seq core_of g s rk seed mu | mu <- iota 0 (size s)]) //.
have : all (fun mu => mu < size s)%N (iota 0 (size s)) by apply/allP => mu; rewrite mem_iota.
elim: (iota 0 (size s)) => //= mu l IH /andP[hm hl]; rewrite IH //.
have e1 : nth 0%N (1%N :: rk ++ [:: 1%N]) mu = ra rk mu.
  by case: mu hm => //= mu hm; rewrite nth_cat sr; have -> : (mu < (size s).-1)%N by clear -hm; lia.
rewrite /tt_random_core andFb; cbn [String.eqb Ascii.eqb Bool.eqb bind]; rewrite e1.
rewrite /reshape /= muln1 !mulnA eqxx /=; congr (Ok (_ :: _)).
by rewrite /core_of -map_comp.
Qed.

Lemma gen_tdeg s i k : tdeg vs 1 (fun w : pos -> R => gen_of w s i k).
Proof.
rewrite /gen_of; case: (insub _) => [a|]; last exact: tdeg_const.
case: (insub i) => [b|]; last exact: tdeg_const.
case: (insub k) => [c|]; last exact: tdeg_const.
by apply: tdeg_var; rewrite mem_enum.
Qed.

Lemma core_tdeg s rk seed mu idx : tdeg vs 1 (fun w : pos -> R => get (core_of (gen_of w) s rk seed mu) idx).
Proof.
pose q := ravel [:: ra rk mu; nth 0%N s mu; nth 0%N (rk ++ [:: 1%N]) mu] idx.
apply: (@tdeg_ext _ _ _ _ (fun w => nth 0 (ndata (core_of (gen_of w) s rk seed mu)) q)); first by [].
rewrite /core_of; cbn [ndata]; case: (ltnP q (asz s rk mu)) => h.
  apply: (@tdeg_ext _ _ _ _ (fun w => (Num.sqrt (ra rk mu)%:R)^-1 * gen_of w (state seed mu) (q %/ rng_step (asz s rk mu) T)%N (q %% rng_step (asz s rk mu) T)%N)).
    by move=> w; rewrite (nth_map 0%N) ?size_iota // nth_iota // mulrC.
  by apply: tdeg_scale; apply: gen_tdeg.
by apply: tdeg_ext (tdeg_const _ _ 0) => w; rewrite nth_default // size_map size_iota.
Qed.

Lemma step_pos n : (0 < n)%N -> (0 < T)%N -> (0 < rng_step n T)%N.
Proof. by move=> n0 t0; rewrite /rng_step divn_gt0 //; clear -n0 t0; lia. Qed.
Lemma step_thread n q : (q < n)%N -> (0 < T)%N -> (q %/ rng_step n T < T)%N.
Proof.
move=> hq t0; have n0 : (0 < n)%N by clear -hq; lia.
rewrite ltn_divLR ?step_pos //; apply: leq_trans hq _.
rewrite /rng_step; have := ltn_ceil (n + T.-1) t0.
move: ((n + T.-1) %/ T)%N => k; rewrite mulSn [(T * k)%N]mulnC; move: (k * T)%N => y; clear -t0; lia.
Qed.
Lemma step_le n : (0 < T)%N -> (rng_step n T <= n)%N.
Proof.
move=> t0; case: (posnP n) => [->|n0].
  by rewrite /rng_step add0n divn_small //; clear -t0; lia.
rewrite /rng_step -ltnS ltn_divLR //; move: t0 n0; case: (T) => // t _ n0; rewrite !mulSn mulnS /=.
move: (n * t)%N => x; clear -n0; lia.
Qed.

(* values of the generator for which the core is a given array *)
Definition aim (s rk : seq nat) (t : nat -> arr) (mu b c : nat) : R :=
  nth 0 (ndata (t mu)) (b * rng_step (asz s rk mu) T + c)%N * Num.sqrt (ra rk mu)%:R.

Lemma steer (w : pos -> R) s rk seed (t : nat -> arr) mu j : (0 < T)%N -> (asz s rk mu <= B)%N -> (0 < ra rk mu)%N ->
  nwf (t mu) -> nshape (t mu) = [:: ra rk mu; nth 0%N s mu; nth 0%N (rk ++ [:: 1%N]) mu] ->
  uniq words -> (j < size words)%N -> nth N0 words j = state seed mu ->
  (forall (a : 'I_(size words)) b c, nat_of_ord a = j -> w (a, b, c) = aim s rk t mu b c) ->
  core_of (gen_of w) s rk seed mu = t mu.
Proof.
move=> t0 hB r0 wt st uw hj ej hw; rewrite /core_of.
have ez : size (ndata (t mu)) = asz s rk mu by move/eqP: wt => ->; rewrite st /= muln1 mulnA.
have -> : [seq gen_of w (state seed mu) (c %/ rng_step (asz s rk mu) T)%N (c %% rng_step (asz s rk mu) T)%N / Num.sqrt (ra rk mu)%:R
    | c <- iota 0 (asz s rk mu)] = ndata (t mu).
  apply: (@eq_from_nth _ 0); rewrite size_map size_iota // => q hq.
  rewrite (nth_map 0%N) ?size_iota // nth_iota // add0n /gen_of -ej index_uniq //.
  have z0 : (0 < asz s rk mu)%N by clear -hq; lia.
  have h1 : (q %/ rng_step (asz s rk mu) T < T)%N by apply: step_thread.
  have h2 : (q %% rng_step (asz s rk mu) T < B)%N.
    by apply: leq_trans (ltn_pmod _ (step_pos z0 t0)) _; apply: leq_trans (step_le _ t0) hB.
  rewrite (insubT (fun x => x < _)%N hj) (insubT (fun x => x < _)%N h1) (insubT (fun x => x < _)%N h2) hw //=.
  rewrite /aim -divn_eq mulfK //; by apply: lt0r_neq0; rewrite sqrtr_gt0 ltr0n.
by rewrite -st; case: (t mu).
Qed.
End Cores.
