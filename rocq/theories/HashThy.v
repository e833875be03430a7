(* Proofs about the model of fast_lazy_gaussian.pyx. *)
From Coq Require Import NArith Lia.
From mathcomp Require Import all_ssreflect all_algebra.
From mathcomp.zify Require Import zify.
From Verif Require Import Py Nd Tensor Hash NdThy.
Set Implicit Arguments. Unset Strict Implicit. Unset Printing Implicit Defensive.

Definition word (x : N) : Prop := N.lt x M64.

Lemma M64E : M64 = N.pow 2 64. Proof. by []. Qed.

Lemma word_bits x : word x <-> (forall i, N.le 64 i -> N.testbit x i = false).
Proof.
rewrite /word M64E; split=> [xl i il|H].
  case: (N.eq_dec x 0) => [->|x0]; first by rewrite N.bits_0.
  apply: N.bits_above_log2; apply: N.lt_le_trans il.
  by apply/N.log2_lt_pow2 => //; lia.
case: (N.lt_ge_cases x (N.pow 2 64)) => // le.
have x0 : N.lt 0 x by apply: N.lt_le_trans le.
have := H (N.log2 x).
rewrite N.bit_log2; last by lia.
move=> /(_ _); case/(_ _)/Wrap => //.
by apply/N.log2_le_pow2.
Qed.

Lemma word_w64 x : word (w64 x).
Proof. by rewrite /word /w64; apply: N.mod_lt. Qed.
Lemma w64_id x : word x -> w64 x = x.
Proof. by rewrite /w64 => h; apply: N.mod_small. Qed.

Lemma xs_bit k r i : N.testbit (xs k r) i = xorb (N.testbit r i) (N.testbit r (N.add i k)).
Proof. by rewrite /xs N.lxor_spec N.shiftr_spec; last exact: N.le_0_l. Qed.

Lemma word_xs k r : word r -> word (xs k r).
Proof.
move/word_bits=> h; apply/word_bits => i il.
by rewrite xs_bit !h //; lia.
Qed.

Definition xsinv (k y : N) : N :=
  N.lxor (N.lxor y (N.shiftr y k)) (N.shiftr y (N.add k k)).

Lemma xsinv_bit k r i : N.testbit (xsinv k r) i =
  xorb (xorb (N.testbit r i) (N.testbit r (N.add i k))) (N.testbit r (N.add i (N.add k k))).
Proof. by rewrite /xsinv !N.lxor_spec !N.shiftr_spec; try exact: N.le_0_l. Qed.

Lemma word_xsinv k r : word r -> word (xsinv k r).
Proof.
move/word_bits=> h; apply/word_bits => i il.
by rewrite xsinv_bit !h //; lia.
Qed.

Lemma xsK k r : N.le 22 k -> word r -> xsinv k (xs k r) = r.
Proof.
move=> kl /word_bits h; apply: N.bits_inj => i.
rewrite xsinv_bit !xs_bit (h (N.add (N.add i (N.add k k)) k)); last by lia.
rewrite -N.add_assoc.
by rewrite -?N.add_assoc; move: (N.testbit r _) (N.testbit r _) (N.testbit r _) => [] [] [].
Qed.

Lemma xsinvK k r : N.le 22 k -> word r -> xs k (xsinv k r) = r.
Proof.
move=> kl /word_bits h; apply: N.bits_inj => i.
rewrite xs_bit !xsinv_bit (h (N.add (N.add i k) (N.add k k))); last by lia.
rewrite -N.add_assoc.
by rewrite -?N.add_assoc; move: (N.testbit r _) (N.testbit r _) (N.testbit r _) => [] [] [].
Qed.

Definition mult1i : N := 10871156337175269513.
Definition mult2i : N := 3573116690164977347.

Lemma w64_mul a b x : w64 (N.mul a b) = 1%num -> word x -> w64 (N.mul (w64 (N.mul x a)) b) = x.
Proof.
rewrite /w64 => h xw.
rewrite N.mul_mod_idemp_l // -N.mul_assoc -N.mul_mod_idemp_r // h N.mul_1_r.
exact: N.mod_small.
Qed.

Definition unhash64 (y : N) : N :=
  let y := xsinv 31 y in
  let y := w64 (N.mul y mult2i) in
  let y := xsinv 27 y in
  let y := w64 (N.mul y mult1i) in
  let y := xsinv 30 y in
  w64 (N.add y (N.sub M64 add1)).

Lemma word_hash64 x : word (hash64 x).
Proof. by apply: word_xs; apply: word_w64. Qed.
Lemma word_unhash64 x : word (unhash64 x).
Proof. exact: word_w64. Qed.

Lemma w64_add a b x : N.add a b = M64 -> word x -> w64 (N.add (w64 (N.add x a)) b) = x.
Proof.
rewrite /w64 => h xw.
rewrite N.add_mod_idemp_l // -N.add_assoc h.
rewrite -N.add_mod_idemp_r // N.mod_same // N.add_0_r.
exact: N.mod_small.
Qed.


Lemma mm1 : w64 (N.mul mult1 mult1i) = 1%num. Proof. by vm_compute. Qed.
Lemma mm2 : w64 (N.mul mult2 mult2i) = 1%num. Proof. by vm_compute. Qed.
Lemma mm1' : w64 (N.mul mult1i mult1) = 1%num. Proof. by vm_compute. Qed.
Lemma mm2' : w64 (N.mul mult2i mult2) = 1%num. Proof. by vm_compute. Qed.
Lemma aa : N.add add1 (N.sub M64 add1) = M64. Proof. by vm_compute. Qed.
Lemma aa' : N.add (N.sub M64 add1) add1 = M64. Proof. by vm_compute. Qed.
Lemma sh30 : N.le 22 30. Proof. by vm_compute. Qed.
Lemma sh27 : N.le 22 27. Proof. by vm_compute. Qed.
Lemma sh31 : N.le 22 31. Proof. by vm_compute. Qed.

Lemma hash64K x : word x -> unhash64 (hash64 x) = x.
Proof.
move=> xw; rewrite /unhash64 /hash64.
rewrite (xsK sh31 (word_w64 _)).
rewrite (w64_mul mm2 (word_xs _ (word_w64 _))).
rewrite (xsK sh27 (word_w64 _)).
rewrite (w64_mul mm1 (word_xs _ (word_w64 _))).
rewrite (xsK sh30 (word_w64 _)).
by rewrite (w64_add aa xw).
Qed.

Lemma unhash64K x : word x -> hash64 (unhash64 x) = x.
Proof.
move=> xw; rewrite /unhash64 /hash64.
rewrite (w64_add aa' (word_xsinv _ (word_w64 _))).
rewrite (xsinvK sh30 (word_w64 _)).
rewrite (w64_mul mm1' (word_xsinv _ (word_w64 _))).
rewrite (xsinvK sh27 (word_w64 _)).
rewrite (w64_mul mm2' (word_xsinv _ xw)).
by rewrite (xsinvK sh31 xw).
Qed.

(* ------------------------------------------------------------------ *)
(* the flat index                                                      *)

(* Fortran-order (first index fastest) position *)
Fixpoint fpos (s c : seq nat) : nat :=
  match s, c with
  | n :: s', k :: c' => k + n * fpos s' c'
  | _, _ => 0
  end.

Lemma fpos_lt s c : inb s c -> fpos s c < prods s.
Proof.
elim: s c => [|n s IH] [|k c] //= /andP[kn /IH h].
have {}h : n * (fpos s c).+1 <= n * prods s by rewrite leq_mul2l h orbT.
rewrite mulnS in h; apply: leq_trans h.
by rewrite -addSn leq_add2r.
Qed.

Lemma fpos_inj s c c' : inb s c -> inb s c' -> fpos s c = fpos s c' -> c = c'.
Proof.
elim: s c c' => [|n s IH] [|k c] [|k' c'] //= /andP[kn hc] /andP[kn' hc'] e.
have n0 : 0 < n by apply: leq_ltn_trans kn.
have ek := congr1 (fun x => x %% n) e.
rewrite /= ![_ + n * _]addnC ![n * _]mulnC !modnMDl !modn_small // in ek.
move: e; rewrite ek => /addnI /eqP; rewrite eqn_mul2l eqn0Ngt n0 /= => /eqP e.
by rewrite (IH c c').
Qed.

Lemma i32_small x : N.lt x M31 -> i32 x = x.
Proof.
move=> h; rewrite /i32 N.mod_small; last by apply: N.lt_trans h _.
by move/N.ltb_lt: h => ->.
Qed.

Lemma ofn_le m n : m <= n -> N.le (N.of_nat m) (N.of_nat n).
Proof. by lia. Qed.

Lemma flat_loopE s c (flat P : nat) : inb s c ->
  (forall k, k < size s -> N.lt (N.of_nat (P * prods (take k s))) M31) ->
  N.lt (N.of_nat (flat + P * fpos s c)) M64 ->
  flat_loop s c (N.of_nat flat) (N.of_nat P) = N.of_nat (flat + P * fpos s c).
Proof.
elim: s c flat P => [|n s IH] [|k c] flat P //=; first by rewrite muln0 addn0.
case/andP=> kn hc hp hb.
have hb' : N.lt (N.of_nat (flat + k * P)) M64.
  apply: N.le_lt_trans hb; apply: ofn_le.
  by rewrite leq_add2l mulnDr mulnC leq_addr.
have hb2 : N.lt (N.of_nat (k * P)) M64.
  by apply: N.le_lt_trans hb'; apply: ofn_le; rewrite leq_addl.
have -> : N.mul (N.of_nat k) (N.of_nat P) = N.of_nat (k * P) by lia.
rewrite (w64_id hb2).
have -> : N.add (N.of_nat flat) (N.of_nat (k * P)) = N.of_nat (flat + k * P) by lia.
rewrite (w64_id hb').
have -> : N.mul (N.of_nat P) (N.of_nat n) = N.of_nat (P * n) by lia.
case: s IH hc hp hb => [|m s] IH hc hp hb.
  by case: c hc hb => //= _ _; rewrite mulnDr muln0 muln0 addn0 mulnC.
have h1 : N.lt (N.of_nat (P * n)) M31 by have := hp 1 isT; rewrite /= muln1.
rewrite i32_small // IH //.
- by congr N.of_nat; rewrite mulnDr [P * k]mulnC addnA -mulnA.
- move=> j jl; have := hp j.+1 jl; rewrite [take _ _]/= prods_cons.
  by rewrite mulnA.
- by move: hb; rewrite mulnDr [P * k]mulnC addnA -mulnA.
Qed.

Lemma prods_take_le s k m : 0 < prods s -> k <= m -> prods (take k s) <= prods (take m s).
Proof.
move=> s0 km; rewrite -(cat_take_drop k (take m s)) take_take // prods_cat.
apply: leq_pmulr; move: s0; rewrite -{1}(cat_take_drop m s) prods_cat muln_gt0 => /andP[+ _].
by rewrite -{1}(cat_take_drop k (take m s)) prods_cat muln_gt0 => /andP[].
Qed.

Lemma flat_indexE s c : inb s c ->
  N.lt (N.of_nat (prods (take (size s).-1 s))) M31 -> N.le (N.of_nat (prods s)) M64 ->
  flat_index s c = N.of_nat (fpos s c).
Proof.
case: s c => [|n s] [|k c] // hi hp hb.
have hf := fpos_lt hi.
have hf' : N.lt (N.of_nat (k + n * fpos s c)) M64.
  by apply: N.lt_le_trans hb; move: hf => /=; lia.
have p0 : 0 < prods (n :: s) by exact: leq_ltn_trans hf.
rewrite /flat_index.
have kw : N.lt (N.of_nat k) M64.
  by apply: N.le_lt_trans hf'; apply: ofn_le; rewrite leq_addr.
rewrite (w64_id kw).
case/andP: (hi) => kn hc.
case: s hi hp hb hf hf' p0 hc => [|m s] hi hp hb hf hf' p0 hc.
  by case: c hi hf hf' hc => //= *; rewrite muln0 addn0.
have h1 j : j < size (m :: s) -> N.lt (N.of_nat (n * prods (take j (m :: s)))) M31.
  move=> jl; apply: N.le_lt_trans hp; apply: ofn_le.
  by rewrite -prods_cons -[n :: take _ _]/(take j.+1 (n :: m :: s)) prods_take_le.
rewrite i32_small; last by have := h1 0 isT; rewrite take0 muln1.
by rewrite flat_loopE.
Qed.

Lemma flat_index_inj s c c' : inb s c -> inb s c' ->
  N.lt (N.of_nat (prods (take (size s).-1 s))) M31 -> N.le (N.of_nat (prods s)) M64 ->
  flat_index s c = flat_index s c' -> c = c'.
Proof.
move=> hc hc' h1 h2; rewrite !flat_indexE // => /Nat2N.inj e.
exact: fpos_inj e.
Qed.

Lemma w64_addI a b x : word a -> word b -> w64 (N.add a x) = w64 (N.add b x) -> a = b.
Proof.
rewrite /w64 => ha hb e.
pose z := N.sub M64 (N.modulo x M64).
have e2 : N.modulo (N.add (N.modulo (N.add a x) M64) z) M64 =
          N.modulo (N.add (N.modulo (N.add b x) M64) z) M64 by rewrite e.
move: e2; rewrite !N.add_mod_idemp_l // -!N.add_assoc.
have hx : N.lt (N.modulo x M64) M64 by exact: N.mod_lt.
rewrite -(N.add_mod_idemp_r a) // -(N.add_mod_idemp_r b) // -(N.add_mod_idemp_l x) //.
rewrite /z N.add_sub_assoc; last by apply: N.lt_le_incl.
rewrite [N.add (N.modulo _ _) M64]N.add_comm N.add_sub N.mod_same // !N.add_0_r.
by rewrite !N.mod_small.
Qed.

Lemma hash_word_inj s c c' col seed : inb s c -> inb s c' ->
  N.lt (N.of_nat (prods (take (size s).-1 s))) M31 -> N.le (N.of_nat (prods s)) M64 ->
  hash_word s c col seed = hash_word s c' col seed -> c = c'.
Proof.
move=> hc hc' h1 h2 /(congr1 unhash64); rewrite !hash64K; try exact: word_w64.
move/w64_addI => e; apply: flat_index_inj (e _ _) => //.
  rewrite flat_indexE //; have := fpos_lt hc; rewrite /word; move: h2; clear; lia.
rewrite flat_indexE //; have := fpos_lt hc'; rewrite /word; move: h2; clear; lia.
Qed.
