(* Properties C34-C38: the hashed random numbers of drm/fast_lazy_gaussian.pyx. *)
From Coq Require Import NArith Lia.
From mathcomp Require Import all_ssreflect all_algebra.
From mathcomp.zify Require Import zify.
From Verif Require Import Py Nd Tensor Hash NdThy HashThy HashThy2.
Set Implicit Arguments. Unset Strict Implicit. Unset Printing Implicit Defensive.
Import Order.TTheory GRing.Theory Num.Theory.

Lemma ofn_pow2 k : N.of_nat (2 ^ k)%N = N.pow 2 (N.of_nat k).
Proof. by elim: k => // k IH; rewrite expnS Nat2N.inj_succ N.pow_succ_r' -IH; lia. Qed.

Lemma twopow k : exists T : nat,
  N.of_nat T = N.pow 2 (N.of_nat k) /\ ((2%:R : rat) ^+ k = T%:R)%R.
Proof. by exists (2 ^ k)%N; rewrite ofn_pow2 natrX. Qed.

Lemma good_rows inds shape rank nnz seed : nnz <= rank -> N.lt (N.of_nat rank) M52 ->
  (forall k j, k < size (head [::] inds) -> 0 < j < nnz ->
     N.lt (N.add (frac (rand_word shape [seq nth 0 row k | row <- inds] j (mod63 seed)))
                 (N.of_nat rank)) M52) ->
  forall i, i < size (head [::] inds) -> good (row_words inds shape nnz (mod63 seed) i) rank.
Proof.
move=> nr rb hw i il j; rewrite size_map size_iota => jl.
apply: rand_num_bounds => //; first by lia.
case: j jl => [|j] jl; [by left | right].
rewrite (nth_map 0) ?size_iota // nth_iota // add0n.
exact: hw.
Qed.

(* ---- C34: the hash is a bijection of the 64-bit words ---- *)
Theorem C34_hash_bijective :
  (forall x, N.lt (hash64 x) (N.pow 2 64)) /\
  (forall x y, N.lt x (N.pow 2 64) -> N.lt y (N.pow 2 64) -> hash64 x = hash64 y -> x = y) /\
  (forall y, N.lt y (N.pow 2 64) -> exists2 x, N.lt x (N.pow 2 64) & hash64 x = y).
Proof.
split; [exact: word_hash64 | split].
  by move=> x y wx wy /(congr1 unhash64); rewrite !hash64K.
by move=> y wy; exists (unhash64 y); [exact: word_unhash64 | exact: unhash64K].
Qed.
Print Assumptions C34_hash_bijective.
Example C34_nonvacuous : hash64 0 = 7922256800630425951%num /\ hash64 1 <> hash64 2.
Proof. by vm_compute. Qed.

(* ---- C35: entries depend only on coordinate, column and seed ---- *)
Theorem C35_entry_function (R : ringType) (to_normal : N -> R) (shape : seq nat) (seed : N) :
  exists g : seq nat -> nat -> R, forall (inds : seq (seq nat)) (a b k j : nat),
    (k < size (head [::] inds))%N -> (j < b - a)%N ->
    nshape (inds_to_normal to_normal inds shape a b seed) = [:: size (head [::] inds); (b - a)%N] /\
    get (inds_to_normal to_normal inds shape a b seed) [:: k; j]
      = g [seq nth 0%N row k | row <- inds] (a + j)%N.
Proof.
exists (fun c col => to_normal (frac (rand_word shape c col (mod63 seed)))) => inds a b k j kl jl.
by split=> //; rewrite get_tab //= kl jl.
Qed.
Print Assumptions C35_entry_function.
(* a window [a,b) is the corresponding columns of any larger window *)
Theorem C35_window (R : ringType) (to_normal : N -> R) inds shape (seed : N) (a b a' b' k j : nat) :
  (a' <= a)%N -> (b <= b')%N -> (k < size (head [::] inds))%N -> (j < b - a)%N ->
  get (inds_to_normal to_normal inds shape a b seed) [:: k; j] =
  get (inds_to_normal to_normal inds shape a' b' seed) [:: k; (a - a' + j)%N].
Proof.
move=> ha hb kl jl; rewrite !get_tab /= ?kl /=; first by rewrite addnA subnKC.
- by lia.
- by lia.
Qed.
Print Assumptions C35_window.
(* equal coordinates at any two positions of any two index arrays give equal rows *)
Theorem C35_reorder (R : ringType) (to_normal : N -> R) inds inds' shape (seed : N) (a b k k' j : nat) :
  (k < size (head [::] inds))%N -> (k' < size (head [::] inds'))%N -> (j < b - a)%N ->
  [seq nth 0%N row k | row <- inds] = [seq nth 0%N row k' | row <- inds'] ->
  get (inds_to_normal to_normal inds shape a b seed) [:: k; j] =
  get (inds_to_normal to_normal inds' shape a b seed) [:: k'; j].
Proof.
case: (C35_entry_function to_normal shape seed) => g H kl kl' jl e.
by rewrite (H inds a b k j kl jl).2 (H inds' a b k' j kl' jl).2 e.
Qed.
Print Assumptions C35_reorder.
Example C35_nonvacuous :
  rand_word [:: 3; 4]%N [:: 1; 2]%N 5 (mod63 7) = 2796306105851411435%num.
Proof. by vm_compute. Qed.

(* ---- C36: distinct coordinates, distinct hashes ---- *)
(* All running products but the last below 2^31, all flat positions below 2^64 *)
Theorem C36_distinct_words (shape c c' : seq nat) (col : nat) (seed : N) :
  inb shape c -> inb shape c' ->
  N.lt (N.of_nat (prods (take (size shape).-1 shape))) (N.pow 2 31) ->
  N.le (N.of_nat (prods shape)) (N.pow 2 64) ->
  hash_word shape c col seed = hash_word shape c' col seed -> c = c'.
Proof. exact: hash_word_inj. Qed.
Print Assumptions C36_distinct_words.
(* Beyond: for sizes 2^16, 2^16, n, ... the third coordinate is ignored, whatever the
   column and seed: all "random" entries coincide. *)
Theorem C36_wraparound_refuted (n c1 c2 c3 c3' col : nat) (seed : N) :
  N.lt (N.of_nat c1) (N.pow 2 16) -> N.lt (N.of_nat c2) (N.pow 2 16) ->
  rand_word [:: N.to_nat (N.pow 2 16); N.to_nat (N.pow 2 16); n] [:: c1; c2; c3] col seed =
  rand_word [:: N.to_nat (N.pow 2 16); N.to_nat (N.pow 2 16); n] [:: c1; c2; c3'] col seed.
Proof.
move=> h1 h2; congr mask; congr hash64; congr w64; congr N.add.
rewrite /flat_index /flat_loop !N2Nat.id.
have -> : i32 (N.mul (i32 (N.pow 2 16)) (N.pow 2 16)) = N0 by vm_compute.
by rewrite !N.mul_0_r.
Qed.
Print Assumptions C36_wraparound_refuted.
(* Even for small sizes only the hashed words are distinct, not the random numbers: the
   number keeps 52 of the 64 bits, and two of the 2^27 coordinates of a vector share it. *)
Theorem C36_entries_collide (R : ringType) (to_normal : N -> R) : exists c c' : nat,
  [/\ N.lt (N.of_nat c) (N.pow 2 27), N.lt (N.of_nat c') (N.pow 2 27), c <> c' &
      get (inds_to_normal to_normal [:: [:: c; c']] [:: N.to_nat (N.pow 2 27)] 0 1 N0) [:: 0; 0]%N =
      get (inds_to_normal to_normal [:: [:: c; c']] [:: N.to_nat (N.pow 2 27)] 0 1 N0) [:: 1; 0]%N].
Proof.
have [c ec] : exists c, N.of_nat c = 34064047%num by eexists; apply: N2Nat.id.
have [c' ec'] : exists c, N.of_nat c = 97042582%num by eexists; apply: N2Nat.id.
exists c, c'; rewrite ec ec'; split.
- by vm_compute.
- by vm_compute.
- by move=> e; move: ec'; rewrite -e ec.
move: (N.to_nat (N.pow 2 27)) => n.
rewrite get_tab; last by [].
rewrite get_tab; last by [].
congr to_normal; rewrite /rand_word /hash_word /flat_index /flat_loop /coord.
cbn [nth map]; rewrite ec ec'.
by vm_compute.
Qed.
Print Assumptions C36_entries_collide.
Example C36_nonvacuous : let s := [:: 5; 7; 11]%N in
  [/\ inb s [:: 4; 0; 3]%N, inb s [:: 4; 6; 3]%N,
      N.lt (N.of_nat (prods (take (size s).-1 s))) (N.pow 2 31) &
      N.le (N.of_nat (prods s)) (N.pow 2 64)].
Proof. by []. Qed.

(* ---- C37: hashed words decode to positive normal doubles ---- *)
Local Open Scope ring_scope.
(* IEEE-754: value of a word with sign bit 0 and biased exponent strictly between 0 and 2047 *)
Definition dbl (w : N) : rat :=
  (1 + (N.to_nat (frac w))%:R / (2%:R ^+ 52)) * (2%:R ^ (Posz (N.to_nat (bexp w)) - 1023%:Z)).
Theorem C37_decode (shape c : seq nat) (col : nat) (seed : N) :
  let w := rand_word shape c col seed in
  [/\ sgn w = N0, N.lt 0 (bexp w) /\ N.lt (bexp w) 2047,
      (2%:R ^ (-511%:Z) <= dbl w < 2%:R) &
      exists m : rat, exists e : int,
        [/\ dbl w = m * 2%:R ^ e, 1 / 2%:R <= m < 1, -510%:Z <= e <= 1 &
            0 <= 2%:R * m - 1 < 1 /\ 2%:R * m - 1 = (N.to_nat (frac w))%:R / 2%:R ^+ 52]].
Proof.
move=> w; have := bexp_mask (hash_word shape c col seed); rewrite -/(rand_word _ _ _ _) -/w => -[bl bu].
have fl := frac_lt w.
rewrite /dbl; have [T [eT ->]] := @twopow 52; rewrite -[N.pow _ _]/M52 in eT.
have T0 : 0 < (T%:R : rat) by rewrite ltr0n; case: T eT.
set f : rat := (N.to_nat (frac w))%:R / T%:R.
have f01 : 0 <= f < 1.
  rewrite /f divr_ge0 ?ler0n ?ltW //= ltr_pdivr_mulr // mul1r ltr_nat.
  by move: fl; rewrite -eT; clear; lia.
set E : int := Posz (N.to_nat (bexp w)) - 1023%:Z.
have Eb : -511%:Z <= E <= 0 .
  have : (512 <= N.to_nat (bexp w) <= 1023)%N by move: bl bu; clear; lia.
  by rewrite /E; move: (N.to_nat _) => x /andP[]; clear => h1 h2; apply/andP; split; lia.
case/andP: Eb => El Eu; case/andP: f01 => f0 f1.
have two1 : 1 <= 2%:R :> rat by [].
have pE0 : 0 < (2%:R : rat) ^ E by apply: exprz_gt0.
split.
- exact: sgn_mask.
- by split; move: bl bu; clear; lia.
- apply/andP; split.
    apply: le_trans (ler_weexpz2l two1 El) _.
    by rewrite ler_pmull // ler_addl.
  apply: (@lt_le_trans _ _ (2%:R * 2%:R ^ E)).
    by rewrite ltr_pmul2r // -[2%:R]/(1 + 1) ltr_add2l.
  rewrite -[X in _ <= X]mulr1 ler_pmul2l // -(expr0z (2%:R : rat)).
  exact: ler_weexpz2l.
exists ((1 + f) / 2%:R), (E + 1).
have half : 2%:R * ((1 + f) / 2%:R) = 1 + f by rewrite mulrC divfK.
split.
- rewrite exprzDr // expr1z mulrA mulrAC divfK //.
- rewrite ler_pmul2r ?invr_gt0 // ltr_pdivr_mulr // mul1r ler_addl f0 /=.
  by rewrite -[2%:R]/(1 + 1) ltr_add2l.
- by apply/andP; split; move: El Eu; clear; lia.
- by rewrite half addrAC subrr add0r f0 f1.
Qed.
Print Assumptions C37_decode.
(* The uniform value 0, for which ndtri is -infinity, does occur. *)
Theorem C37_zero_occurs : exists seed : N, N.lt seed (N.pow 2 63) /\
  frac (rand_word [:: 1%N] [:: 0%N] 0 (mod63 seed)) = N0.
Proof. by exists 5054441987544499918%num; vm_compute. Qed.
Print Assumptions C37_zero_occurs.
Local Close Scope ring_scope.

(* ---- C38: sparse sign rows ---- *)
(* the j-th of the nnz random words used for the k-th stored coordinate *)
Local Notation word_at inds shape seed k j :=
  (rand_word shape [seq nth 0%N row k | row <- inds] j (mod63 seed)).
(* Rows over the full window have exactly nnz entries +1 or -1 and zeros elsewhere, except
   when one of the words has its 52-bit fraction within [rank] of the maximum (this
   exception is only needed from the second non-zero on) *)
Theorem C38_rows (inds : seq (seq nat)) (shape : seq nat) (rank nnz : nat) (seed : N) :
  nnz <= rank -> N.lt (N.of_nat rank) (N.pow 2 52) ->
  (forall k j, k < size (head [::] inds) -> 0 < j < nnz ->
     N.lt (N.add (frac (word_at inds shape seed k j)) (N.of_nat rank)) (N.pow 2 52)) ->
  exists2 A, inds_to_sparse_sign inds shape rank 0 rank nnz seed = Ok A &
    nshape A = [:: size (head [::] inds); rank] /\
    forall k, k < size (head [::] inds) ->
      let row := [seq get A [:: k; j] | j <- iota 0 rank] in
      count (fun x => x != Posz 0) row = nnz /\
      all (fun x => x \in [:: Posz 0; Posz 1; Negz 0]) row.
Proof.
move=> nr rb hw.
have hg := good_rows nr rb hw.
have [//|A eA [wA sA gA]] := @signE inds shape rank 0 rank nnz seed nr _ hg.
  by rewrite /= leqnn.
rewrite subn0 in sA gA; exists A => //; split=> // k kl.
have hgk := hg k kl.
have sw : size (row_words inds shape nnz (mod63 seed) k) = nnz by rewrite size_map size_iota.
have sw' : size (row_words inds shape nnz (mod63 seed) k) <= rank by rewrite sw.
have -> : [seq get A [:: k; j] | j <- iota 0 rank] = row_of (row_words inds shape nnz (mod63 seed) k) rank.
  apply: (@eq_from_nth _ (Posz 0)) => [|j].
    rewrite size_map size_iota.
    by case: (@row_of_mid _ rank 0 [::] [::] erefl sw' hgk).
  rewrite size_map size_iota => jl.
  by rewrite (nth_map 0) ?size_iota // nth_iota // gA.
by have := row_of_nnz sw' hgk; rewrite sw.
Qed.
Print Assumptions C38_rows.
(* A window is the corresponding columns of the full window, and a row depends on its
   coordinate only. *)
Theorem C38_window_reorder (inds inds' : seq (seq nat)) (shape : seq nat) (rank nnz a b : nat) (seed : N) :
  nnz <= rank -> N.lt (N.of_nat rank) (N.pow 2 52) -> a <= b <= rank ->
  (forall k j, k < size (head [::] inds) -> 0 < j < nnz ->
     N.lt (N.add (frac (word_at inds shape seed k j)) (N.of_nat rank)) (N.pow 2 52)) ->
  (forall k j, k < size (head [::] inds') -> 0 < j < nnz ->
     N.lt (N.add (frac (word_at inds' shape seed k j)) (N.of_nat rank)) (N.pow 2 52)) ->
  exists A B, [/\ inds_to_sparse_sign inds shape rank 0 rank nnz seed = Ok A,
    inds_to_sparse_sign inds' shape rank a b nnz seed = Ok B &
    forall k k' j, k < size (head [::] inds) -> k' < size (head [::] inds') -> j < b - a ->
      [seq nth 0%N row k | row <- inds] = [seq nth 0%N row k' | row <- inds'] ->
      get B [:: k'; j] = get A [:: k; a + j]].
Proof.
move=> nr rb ab hw hw'.
have [|A eA [wA sA gA]] := @signE inds shape rank 0 rank nnz seed nr _ (good_rows nr rb hw).
  by rewrite /= leqnn.
have [B eB [wB sB gB]] := @signE inds' shape rank a b nnz seed nr ab (good_rows nr rb hw').
exists A, B; split=> // k k' j kl kl' jl e.
rewrite gA ?gB // ?add0n; last by lia.
by rewrite /row_words /coord e.
Qed.
Print Assumptions C38_window_reorder.
(* Without the exception: rank 3 with 3 non-zeros.  The last row writes outside the
   array; an earlier row ends with too few non-zeros. *)
Theorem C38_rounding_refuted : exists seed : N,
  N.lt seed (N.pow 2 63) /\
  inds_to_sparse_sign [:: [:: 0]] [:: 1] 3 0 3 3 seed = Err IndexError /\
  exists A, inds_to_sparse_sign [:: [:: 0; 1]] [:: 2] 3 0 3 3 seed = Ok A /\
    count (fun x => x != Posz 0) [seq get A [:: 0; j] | j <- iota 0 3] = 2.
Proof.
exists 5348114034219196364%num; split; first by vm_compute.
split; first by vm_compute.
eexists; split; first by vm_compute.
by vm_compute.
Qed.
Print Assumptions C38_rounding_refuted.
Example C38_nonvacuous :
  exists2 A, inds_to_sparse_sign [:: [:: 0; 2]; [:: 1; 1]] [:: 3; 2] 5 0 5 2 7 = Ok A &
   [seq get A [:: 1; j] | j <- iota 0 5] = [:: Posz 0; Posz 1; Posz 0; Posz 0; Posz 1].
Proof. by eexists; vm_compute. Qed.
