(* Property C35, continued: how the hashed entries depend on the seed. *)
From Coq Require Import NArith Lia.
From mathcomp Require Import all_ssreflect all_algebra.
From mathcomp.zify Require Import zify.
From Verif Require Import Py Nd Tensor Hash NdThy HashThy HashThy2 Prop_Hash.
Set Implicit Arguments. Unset Strict Implicit. Unset Printing Implicit Defensive.
Import GRing.Theory.

Lemma M64E : M64 = N.pow 2 64. Proof. by []. Qed.
Lemma M64n0 : M64 <> 0%num. Proof. by []. Qed.

Lemma w64_addl x y : w64 (N.add (w64 x) y) = w64 (N.add x y).
Proof. by rewrite /w64 N.add_mod_idemp_l //; exact: M64n0. Qed.
Lemma w64_addr x y : w64 (N.add x (w64 y)) = w64 (N.add x y).
Proof. by rewrite /w64 N.add_mod_idemp_r //; exact: M64n0. Qed.

Lemma flat_loop_add sh co f d p :
  flat_loop sh co (w64 (N.add f d)) p = w64 (N.add (flat_loop sh co (w64 f) p) d).
Proof.
elim: sh co f p => [|s sh IH] [|c co] f p /=; rewrite ?w64_addl //.
rewrite -IH; congr (flat_loop _ _ (w64 _) _).
by rewrite -!N.add_assoc; congr N.add; rewrite N.add_comm.
Qed.
Lemma flat_index_succ sh c co : 0 < size sh ->
  flat_index sh (c.+1 :: co) = w64 (N.add (flat_index sh (c :: co)) 1).
Proof.
case: sh => [|s sh] //= _; rewrite -flat_loop_add; congr (flat_loop _ _ (w64 _) _); lia.
Qed.

Lemma mod63_small s : N.lt s (N.pow 2 63) -> mod63 s = s.
Proof. by move=> h; rewrite /mod63 N.mod_small. Qed.

Lemma hash_word_shift sh c co j (s : N) : 0 < size sh ->
  hash_word sh (c.+1 :: co) j s = hash_word sh (c :: co) j (N.add s 1).
Proof.
move=> hs; rewrite /hash_word; congr hash64.
rewrite flat_index_succ // w64_addl !w64_addr; congr w64; lia.
Qed.

Lemma flat_loop_word sh co f p : w64 f = f -> w64 (flat_loop sh co f p) = flat_loop sh co f p.
Proof.
elim: sh co f p => [|s sh IH] [|c co] f p hf //=; apply: IH.
by rewrite {1}/w64 N.mod_mod //; exact: M64n0.
Qed.
Lemma w64_idem x : w64 (w64 x) = w64 x.
Proof. by rewrite /w64 N.mod_mod //; exact: M64n0. Qed.

Lemma flat_loop_rcons0 sh co n f p : size sh = size co -> w64 f = f ->
  flat_loop (rcons sh n) (rcons co 0) f p = flat_loop sh co f p.
Proof.
elim: sh co f p => [|s sh IH] [|c co] f p //=; first by move=> _ hf; rewrite N.add_0_r.
by case=> hs hf; rewrite IH // w64_idem.
Qed.
Lemma flat_index_rcons0 sh co n : size sh = size co -> 0 < size sh ->
  flat_index (rcons sh n) (rcons co 0) = flat_index sh co.
Proof.
case: sh co => [|s sh] [|c co] //= [hs] _; rewrite flat_loop_rcons0 //; exact: w64_idem.
Qed.

(* the row of coordinate (c+1, co) under seed s is the row of (c, co) under seed s+1 *)
Theorem C35_shifted_seeds (R : ringType) (to_normal : N -> R) inds inds' shape (a b k k' j c : nat)
    (co : seq nat) (s : N) :
  0 < size shape -> N.lt (N.succ s) (N.pow 2 63) ->
  k < size (head [::] inds) -> k' < size (head [::] inds') -> j < b - a ->
  [seq nth 0 row k | row <- inds] = c.+1 :: co ->
  [seq nth 0 row k' | row <- inds'] = c :: co ->
  get (inds_to_normal to_normal inds shape a b s) [:: k; j] =
  get (inds_to_normal to_normal inds' shape a b (N.succ s)) [:: k'; j].
Proof.
move=> hs ls kl kl' jl ek ek'.
rewrite !get_tab /= ?kl ?kl' ?jl //.
rewrite !mod63_small //; last by lia.
by rewrite /rand_word /coord ek ek' hash_word_shift // N.add_1_r.
Qed.
Print Assumptions C35_shifted_seeds.

(* Within one sketch, mode mu+1 uses the next seed: its row at (c, co, 0) is the row of
   mode mu at (c+1, co).  The sketching matrices of neighbouring modes are not independent. *)
Theorem C35_next_mode_shares_rows (R : ringType) (to_normal : N -> R) inds inds' shape
    (n a b k k' j c : nat) (co : seq nat) (s : N) :
  size shape = (size co).+1 -> N.lt (N.succ s) (N.pow 2 63) ->
  k < size (head [::] inds) -> k' < size (head [::] inds') -> j < b - a ->
  [seq nth 0 row k | row <- inds] = c.+1 :: co ->
  [seq nth 0 row k' | row <- inds'] = rcons (c :: co) 0 ->
  get (inds_to_normal to_normal inds shape a b s) [:: k; j] =
  get (inds_to_normal to_normal inds' (rcons shape n) a b (N.succ s)) [:: k'; j].
Proof.
move=> hs ls kl kl' jl ek ek'.
rewrite !get_tab /= ?kl ?kl' ?jl //.
rewrite !mod63_small //; last by lia.
rewrite /rand_word /coord ek ek' hash_word_shift ?hs // N.add_1_r.
by congr to_normal; rewrite /hash_word flat_index_rcons0 ?hs.
Qed.
Print Assumptions C35_next_mode_shares_rows.

(* no two seeds below 2^63 give the same word to an entry *)
Theorem C35_distinct_seeds shape coord col (s s' : N) :
  N.lt s (N.pow 2 63) -> N.lt s' (N.pow 2 63) ->
  hash_word shape coord col (mod63 s) = hash_word shape coord col (mod63 s') -> s = s'.
Proof.
move=> ls ls'; rewrite !mod63_small // /hash_word.
have wl x : N.lt (w64 x) (N.pow 2 64) by apply: N.mod_lt.
move=> /(C34_hash_bijective.2.1 _ _ (wl _) (wl _)); rewrite !w64_addr !N.add_assoc.
set x := N.add _ (hash64 _).
move=> e; have := N.mod_lt x M64 M64n0.
move: e; rewrite -(w64_addl x) -(w64_addl x s') /w64; set y := N.modulo x M64.
move=> e ly; have h1 := N.div_mod (N.add y s) M64 M64n0.
have h2 := N.div_mod (N.add y s') M64 M64n0.
rewrite -e in h2; move: h1 h2; set q := N.div _ _; set q' := N.div _ M64; set r := N.modulo _ _.
move=> h1 h2; rewrite /M64 in h1 h2 ly *; lia.
Qed.
Print Assumptions C35_distinct_seeds.

Example C35_seed_nonvacuous :
  rand_word [:: 3; 4] [:: 2; 3] 5 7 = rand_word [:: 3; 4] [:: 1; 3] 5 8 /\
  rand_word [:: 3; 4] [:: 2; 3] 5 7 = rand_word [:: 3; 4; 9] [:: 1; 3; 0] 5 8 /\
  rand_word [:: 3; 4] [:: 2; 3] 5 7 <> rand_word [:: 3; 4] [:: 2; 3] 5 8.
Proof. by vm_compute. Qed.

Lemma eq_in_foldM (A : eqType) (B : Type) (f g : B -> A -> res B) (b : B) (l : seq A) :
  (forall b x, x \in l -> f b x = g b x) -> foldM f b l = foldM g b l.
Proof.
elim: l b => //= x l IH b h; rewrite h ?mem_head //; case: (g b x) => //= b'.
by apply: IH => b'' y yl; apply: h; rewrite inE yl orbT.
Qed.
(* the whole sign matrix of the coordinates (r + 1, rest) under seed s is the one of
   (r, rest) under seed s+1 *)
Theorem C35_shifted_seeds_sign r rest shape (rank a b nnz : nat) (s : N) :
  0 < size shape -> N.lt (N.succ s) (N.pow 2 63) ->
  inds_to_sparse_sign (map succn r :: rest) shape rank a b nnz s =
  inds_to_sparse_sign (r :: rest) shape rank a b nnz (N.succ s).
Proof.
move=> hs ls; rewrite /inds_to_sparse_sign !mod63_small //; last by lia.
suff -> : sparse_sign_flat (map succn r :: rest) shape rank nnz s =
   sparse_sign_flat (r :: rest) shape rank nnz (N.succ s) by rewrite /= size_map.
rewrite /sparse_sign_flat /= size_map.
apply: eq_in_foldM => l i; rewrite mem_iota add0n => /= il.
suff -> : row_words (map succn r :: rest) shape nnz s i = row_words (r :: rest) shape nnz (N.succ s) i by [].
rewrite /row_words; apply: eq_map => j.
by rewrite /rand_word /coord /= (nth_map 0) // hash_word_shift // N.add_1_r.
Qed.
Print Assumptions C35_shifted_seeds_sign.
