(* Property C39: the threaded random fill. *)
From Coq Require Import NArith.
From mathcomp Require Import all_ssreflect.
From mathcomp Require Import zify.
From Verif Require Import Py Nd Rng.
Set Implicit Arguments. Unset Strict Implicit. Unset Printing Implicit Defensive.

Section Rng.
Variable R : Type.
Variable gen : nat -> nat -> R.
Variables n threads : nat.
Hypothesis t0 : 0 < threads.
Notation step := (rng_step n threads).
Notation first := (seg_first n threads).
Notation len := (seg_size n threads).
Notation trans := (rng_trans gen n threads).
Notation final := (rng_final n threads).

Lemma step_ge : n <= threads * step.
Proof.
rewrite /rng_step; have := divn_eq (n + threads.-1) threads; have := ltn_pmod (n + threads.-1) t0.
rewrite [X in _ -> _ -> _ <= X]mulnC; lia.
Qed.
(* position c belongs to exactly one task *)
Lemma owner c : c < n -> [/\ 0 < step, c %/ step < threads, c = first (c %/ step) + c %% step & c %% step < len (c %/ step)].
Proof.
move=> hc; have hs := step_ge.
have s0 : 0 < step by case: step hs => //; rewrite muln0; lia.
have hq : c %/ step < threads by rewrite ltn_divLR //; lia.
have hr := ltn_pmod c s0; have he := divn_eq c step.
have hf : first (c %/ step) = c %/ step * step by rewrite /seg_first; apply/minn_idPl; lia.
split=> //; first by rewrite hf.
rewrite /seg_size hf mulSn; lia.
Qed.
Lemma seg_lt i k : k < len i -> first i + k < n.
Proof. by rewrite /seg_size /seg_first; lia. Qed.
Lemma seg_owner i k : k < len i -> (first i + k) %/ step = i /\ (first i + k) %% step = k.
Proof.
move=> hk; have hn := seg_lt hk; have [s0 _ _ _] := owner hn.
have hf : first i = i * step by rewrite /seg_first; apply/minn_idPl; move: hk; rewrite /seg_size /seg_first; lia.
have ks : k < step by move: hk; rewrite /seg_size hf mulSn; lia.
by rewrite hf divnMDl // divn_small // addn0 modnMDl modn_small.
Qed.

Lemma nth_set (T : Type) (x y : T) s c v z : c < size s -> nth x (set_nth y s c v) z = if z == c then v else nth x s z.
Proof.
move=> hc; have e : set_nth y s c v = set_nth x s c v.
  by elim: s c hc => [|a s IH] [|c] //= hc; rewrite IH.
by rewrite e nth_set_nth.
Qed.
(* the invariant of every reachable state *)
Definition inv (st : rng_state R) : Prop :=
  [/\ submitted st <= threads, size (drawn st) = threads /\ size (values st) = n,
      forall i, i < threads -> nth 0 (drawn st) i <= len i /\ (submitted st <= i -> nth 0 (drawn st) i = 0),
      forall i k x, i < threads -> k < nth 0 (drawn st) i -> nth x (values st) (first i + k) = gen i k &
      uniq (writes st) /\ forall c, (c \in writes st) = (c < n) && (c %% step < nth 0 (drawn st) (c %/ step))].

Lemma inv_init g : size g = n -> inv (rng_init threads g).
Proof.
move=> sg; split=> //=; rewrite ?size_nseq //.
- by move=> i _; rewrite nth_nseq if_same.
- by move=> i k x _; rewrite nth_nseq if_same.
by split=> // c; rewrite in_nil nth_nseq if_same ltn0 andbF.
Qed.

Lemma inv_trans st st' : inv st -> trans st st' -> inv st'.
Proof.
move=> hinv ht; destruct ht as [s0 hs|s0 i hi hk k c]; case: hinv => [h1 [h2 h3] h4 h5 [h6 h7]].
  by split=> //= j hj; have [h41 h42] := h4 j hj; split=> // hsj; apply: h42; lia.
have it : i < threads by lia.
change (nth 0 (drawn s0) i) with k in hk.
have hc : c < n := seg_lt hk.
have [oi ok] := seg_owner hk; rewrite -/c in oi ok.
split=> //=.
- by rewrite !size_set_nth h2 h3 !(maxn_idPr _).
- move=> j hj; have [h41 h42] := h4 j hj; rewrite nth_set_nth /=; case: eqP => [->|_] //; split=> //; lia.
- move=> j k' x hj; rewrite nth_set_nth /= (@nth_set _ x) ?h3 //; case: (j =P i) => [->|nji].
    case: (k' =P k) => [-> _|nk hk']; first by rewrite -/c eqxx.
    have hk2 : k' < k by lia.
    by rewrite (_ : (first i + k' == c) = false) ?h5 //; rewrite /c; lia.
  move=> hk'; have hl : k' < len j by have [h41 _] := h4 j hj; lia.
  have [oj ok'] := seg_owner hl.
  rewrite (_ : (first j + k' == c) = false) ?h5 //; apply/eqP => e; apply: nji; by rewrite -oj e oi.
- split.
    by rewrite rcons_uniq h6 h7 oi ok -/k ltnn andbF.
  move=> z; rewrite mem_rcons inE h7 nth_set_nth /=; case: (z =P c) => [->|nz] /=; first by rewrite oi eqxx ok hc ltnSn.
  case: (ltnP z n) => //= hz; case: eqP => // e.
  have [_ _ ez _] := owner hz; rewrite e in ez *; rewrite -/k.
  have e2 : z %% step <> k by move=> e2; apply: nz; rewrite ez e2.
  by clear -e2; lia.
Qed.

Lemma steps_inv m g st : size g = n -> rng_steps gen n threads m (rng_init threads g) st -> inv st.
Proof. by move=> sg; move e: (rng_init threads g) => s0 h; elim: h e => [{}st <-|m' s1 s2 s3 _ IH h2 e]; [exact: inv_init|apply: inv_trans h2; apply: IH]. Qed.

Lemma final_values g st m : size g = n -> rng_steps gen n threads m (rng_init threads g) st -> final st ->
  values st = [seq gen (c %/ step) (c %% step) | c <- iota 0 n].
Proof.
move=> sg hst [_ hf]; have [_ [_ sv] _ h5 _] := steps_inv sg hst.
have [n0|n0] := posnP n; first by move: sv; rewrite n0 /=; case: (values st).
pose x0 := gen 0 0.
apply: (@eq_from_nth _ x0); rewrite sv ?size_map ?size_iota // => c hc.
rewrite (nth_map 0) ?size_iota // nth_iota // add0n.
have [s0 ho ec hr] := owner hc; by rewrite {1}ec h5 // hf.
Qed.

Lemma sum_set (s : seq nat) i k : i < size s -> sumn (set_nth 0 s i k) + nth 0 s i = sumn s + k.
Proof. by elim: s i => [|x s IH] [|i] //= hi; [lia|have := IH i hi; lia]. Qed.

Lemma steps_count m g st : size g = n -> rng_steps gen n threads m (rng_init threads g) st ->
  m = submitted st + sumn (drawn st).
Proof.
move=> sg; move e: (rng_init threads g) => s0 h; elim: h e => [{}st <-|m' s1 s2 s3 h1 IH h2 e] /=.
  by rewrite sumn_nseq mul0n.
have hi : inv s2 by apply: (steps_inv sg (m := m')); rewrite e.
rewrite (IH e); clear h1 IH; destruct h2 as [s hs|s i hs hk k c] => /=; first by lia.
have [a1 [a2 _] _ _ _] := hi.
have hi2 : i < size (drawn s) by rewrite a2; clear -hs a1; lia.
have := sum_set k.+1 hi2; rewrite -/k; clear; lia.
Qed.

Lemma sum_le (s : seq nat) (f : nat -> nat) : (forall i, i < size s -> nth 0 s i <= f i) -> sumn s <= \sum_(0 <= i < size s) f i.
Proof.
elim: s f => [|x s IH] f h /=; first by rewrite big_geq.
by rewrite big_nat_recl //; apply: leq_add; [exact: (h 0)|apply: IH => i hi; apply: (h i.+1)].
Qed.
Lemma sum_len : \sum_(0 <= i < threads) len i = n.
Proof.
have : forall t, \sum_(0 <= i < t) len i = minn (t * step) n.
  elim=> [|t IH]; first by rewrite big_geq // min0n.
  by rewrite big_nat_recr //= IH /seg_size /seg_first mulSn; lia.
by move=> ->; apply/minn_idPr; exact: step_ge.
Qed.
End Rng.

(* ---- C39 ---- *)
(* Whatever the interleaving of the submissions and the worker threads and whatever the array
   contained, when fill() returns the array is the one of [random_normal], and every position
   has been written exactly once. *)
Theorem C39_schedule_independent (R : Type) (gen : N -> nat -> nat -> R) threads shape seed garbage m st :
  let n := prods shape in 0 < threads -> size garbage = n ->
  rng_steps (gen seed) n threads m (rng_init threads garbage) st -> rng_final n threads st ->
  Nd shape (values st) = random_normal gen threads shape seed /\ perm_eq (writes st) (iota 0 n).
Proof.
move=> n t0 sg hs hf; split; first by rewrite /random_normal (final_values t0 sg hs hf).
have [_ _ _ _ [h6 h7]] := steps_inv t0 sg hs.
apply: uniq_perm => //; first exact: iota_uniq.
move=> c; rewrite h7 mem_iota /= add0n; case: ltnP => //= hc.
by have [_ ho _ hr] := owner t0 hc; case: hf => _ ->.
Qed.

(* every execution is finite (at most threads + n steps), and it can only stop in a final state:
   no deadlock *)
Theorem C39_terminates (R : Type) (gen : nat -> nat -> R) n threads garbage m st : 0 < threads -> size garbage = n ->
  rng_steps gen n threads m (rng_init threads garbage) st ->
  m <= threads + n /\ (rng_final n threads st \/ exists st', rng_trans gen n threads st st').
Proof.
move=> t0 sg hs; have [h1 [h2 h3] h4 h5 _] := steps_inv t0 sg hs; split.
  rewrite (steps_count t0 sg hs); apply: leq_add => //.
  rewrite -[X in _ <= X](sum_len n t0) -h2; apply: sum_le; rewrite h2 => i hi.
  by have [] := h4 i hi.
have [hlt|hge] := ltnP (submitted st) threads; first by right; eexists; apply: Submit.
have es : submitted st = threads by lia.
have [[i hi hlt]|hn] : (exists2 i, i < threads & nth 0 (drawn st) i < seg_size n threads i) \/
    (forall i, i < threads -> nth 0 (drawn st) i = seg_size n threads i).
  case ea: (all (fun i => nth 0 (drawn st) i == seg_size n threads i) (iota 0 threads)).
    by right=> i hi; move/allP: ea => /(_ i); rewrite mem_iota /= add0n => /(_ hi)/eqP.
  move/negbT: ea; rewrite -has_predC => /hasP[i]; rewrite mem_iota /= add0n => hi hne; left; exists i => //.
  have [hle _] := h4 i hi; move: hne hle; lia.
  by right; eexists; apply: (@Draw _ gen n threads st i); rewrite ?es.
by left.
Qed.

(* the result does depend on the number of threads *)
Theorem C39_thread_count_refuted : exists (gen : N -> nat -> nat -> nat) shape seed,
  random_normal gen 1 shape seed <> random_normal gen 2 shape seed.
Proof. by exists (fun _ i k => 10 * i + k), [:: 4], N0. Qed.

(* a complete run with two threads and five values, the second worker first *)
Example C39_nonvacuous : exists m st, rng_steps (fun i k => 10 * i + k) 3 2 m (rng_init 2 [:: 7; 7; 7]) st /\
  rng_final 3 2 st /\ values st = [:: 0; 1; 10] /\ writes st = [:: 2; 0; 1].
Proof.
exists 5; eexists; split.
  apply: StepsS; first apply: StepsS; first apply: StepsS; first apply: StepsS; first apply: StepsS; first exact: Steps0.
  - by apply: Submit. - by apply: Submit. - by apply: (@Draw _ _ _ _ _ 1). - by apply: (@Draw _ _ _ _ _ 0). - by apply: (@Draw _ _ _ _ _ 0).
by split=> //; split=> // -[|[|i]].
Qed.
Print Assumptions C39_schedule_independent.
Print Assumptions C39_terminates.
Print Assumptions C39_thread_count_refuted.
