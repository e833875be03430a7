(* Model of tt_sketch/drm/fast_lazy_gaussian.pyx on machine words (definitions only).
   64-bit words are values of type N below 2^64; C's wrap-around is explicit. *)
From Coq Require Import NArith.
From mathcomp Require Import all_ssreflect all_algebra.
From Verif Require Import Py Nd Tensor.
Set Implicit Arguments. Unset Strict Implicit. Unset Printing Implicit Defensive.
Import GRing.Theory.

Definition M64 : N := 18446744073709551616.          (* 2^64 *)
Definition M63 : N := 9223372036854775808.           (* 2^63 *)
Definition M32 : N := 4294967296.                    (* 2^32 *)
Definition M31 : N := 2147483648.                    (* 2^31 *)
Definition M52 : N := 4503599627370496.              (* 2^52 *)
Definition M53 : N := 9007199254740992.              (* 2^53 *)

(* reduction of an arithmetic result to uint64 *)
Definition w64 (x : N) : N := N.modulo x M64.

(* r ^= r >> k *)
Definition xs (k r : N) : N := N.lxor r (N.shiftr r k).

(* hash_int_c, pyx:14-39, for one array element *)
Definition mult1 : N := 13787848793156543929.        (* 0xBF58476D1CE4E5B9 *)
Definition mult2 : N := 10723151780598845931.        (* 0x94D049BB133111EB *)
Definition add1 : N := 5470045285534625747.          (* 0x4BE98134A5976FD3 *)
Definition hash64 (r : N) : N :=
  let r := w64 (N.add r add1) in
  let r := xs 30 r in
  let r := w64 (N.mul r mult1) in
  let r := xs 27 r in
  let r := w64 (N.mul r mult2) in
  xs 31 r.

(* conversion of a uint64 to a C int (32 bits, two's complement), and back to uint64
   by sign extension, as happens in [indices[i,j] * prod] (pyx:74) *)
Definition i32 (x : N) : N :=
  let y := N.modulo x M32 in
  if N.ltb y M31 then y else N.add y (N.sub M64 M32).

(* pyx:65-75: the flat index of one coordinate; [prod] is a C int *)
Fixpoint flat_loop (shape coord : seq nat) (flat prod : N) : N :=
  match shape, coord with
  | s :: shape', c :: coord' =>
      flat_loop shape' coord' (w64 (N.add flat (w64 (N.mul (N.of_nat c) prod))))
                (i32 (N.mul prod (N.of_nat s)))
  | _, _ => flat
  end.
Definition flat_index (shape coord : seq nat) : N :=
  match shape, coord with
  | s0 :: shape', c0 :: coord' =>
      flat_loop shape' coord' (w64 (N.of_nat c0)) (i32 (N.of_nat s0))
  | _, _ => N0
  end.

(* pyx:77-95: the hashed word of one coordinate and one column, before masking *)
Definition hash_word (shape coord : seq nat) (col : nat) (seed : N) : N :=
  hash64 (w64 (N.add (flat_index shape coord) (w64 (N.add (hash64 (N.of_nat col)) seed)))).

(* pyx:92-102: h = (h | SETBIT3) & SETBITS12 *)
Definition SETBIT3 : N := 2305843009213693952.       (* 0x2000000000000000 *)
Definition SETBITS12 : N := 4611686018427387903.     (* 0x3FFFFFFFFFFFFFFF *)
Definition mask (h : N) : N := N.land (N.lor h SETBIT3) SETBITS12.

Definition rand_word (shape coord : seq nat) (col : nat) (seed : N) : N :=
  mask (hash_word shape coord col seed).

(* np.mod(seed, 2**63, dtype=np.uint64), pyx:177 and 200 *)
Definition mod63 (seed : N) : N := N.modulo seed M63.

(* The fields of a word read as an IEEE-754 double (np.frombuffer, pyx:103) *)
Definition frac (w : N) : N := N.modulo w M52.             (* bits 0..51 *)
Definition bexp (w : N) : N := N.modulo (N.div w M52) 2048.  (* bits 52..62 *)
Definition sgn (w : N) : N := N.div w M63.                 (* bit 63 *)

Section Normal.
Variable R : ringType.
(* uint_to_normal, pyx:41-54: for a positive normal double (which masked words are: C37)
   frexp(x)*2 - 1 is exactly frac / 2^52, so the number is ndtri(frac / 2^52).  scipy's
   ndtri is an oracle: [to_normal f] stands for ndtri(f / 2^52). *)
Variable to_normal : N -> R.

(* inds_to_normal, pyx:183-201 with 108-120; rows of [inds] are the modes.
   C ints N and rank are assumed not to overflow. *)
Definition inds_to_normal (inds : seq (seq nat)) (shape : seq nat) (rank_min rank_max : nat)
   (seed : N) : nd R :=
  let n := size (head [::] inds) in
  tab [:: n; (rank_max - rank_min)%N] (fun kj =>
    to_normal (frac (rand_word shape (coord inds (nth 0%N kj 0)) (rank_min + nth 0%N kj 1)
                               (mod63 seed)))).
End Normal.

(* ------------------------------------------------------------------ *)
(* _inds_to_sparse_sign, pyx:122-156                                   *)

(* (e % 2) * 2 - 1 where e is frexp's exponent, bexp - 1022; Cython's % has Python
   semantics, so e % 2 is 0 or 1 *)
Definition sign_of (w : N) : int :=
  if N.odd (bexp w) then Posz 1 else Negz 0.

(* Round to 53 significant bits, ties to even: a double of value x / 2^52.
   All numbers here are non-negative multiples of 2^-52, so no subnormals. *)
Definition round53 (x : N) : N :=
  if N.ltb x M53 then x else
  let s := N.sub (N.log2 x) 52 in
  let u := N.pow 2 s in
  let q := N.div x u in
  let r := N.modulo x u in
  let h := N.div u 2 in
  let q' := if N.ltb h r then N.succ q
            else if (N.eqb r h) && N.odd q then N.succ q else q in
  N.mul q' u.

(* pyx:151: <int>(u * (rank - j) + j), u = 2*frexp - 1 = frac / 2^52, in double
   arithmetic: one rounding after the product and one after the sum *)
Definition rand_num (w : N) (rank j : nat) : nat :=
  let p := round53 (N.mul (frac w) (N.of_nat (rank - j))) in
  let q := round53 (N.add p (N.mul (N.of_nat j) M52)) in
  N.to_nat (N.div q M52).

(* swap of two cells of the flat array.  The pyx code does no bounds check: an index
   outside the array is undefined behaviour, modelled as IndexError. *)
Definition swap (l : seq int) (a b : nat) : res (seq int) :=
  if (a < size l) && (b < size l)
  then Ok (set_nth (Posz 0) (set_nth (Posz 0) l a (nth (Posz 0) l b)) b (nth (Posz 0) l a))
  else Err IndexError.

(* pyx:140-155, the loops for one row i of the flat array *)
Definition sign_row_fill (ws : seq N) (rank i : nat) (l : seq int) : seq int :=
  foldl (fun l jw => set_nth (Posz 0) l (i * rank + jw.1) (sign_of jw.2))
        l (zip (iota 0 (size ws)) ws).
Definition sign_row_perm (ws : seq N) (rank i : nat) (l : seq int) : res (seq int) :=
  foldM (fun l jw => swap l (i * rank + jw.1) (i * rank + rand_num jw.2 rank jw.1))
        l (zip (iota 0 (size ws)) ws).

(* the words of row i: columns 0..nnz-1 *)
Definition row_words (inds : seq (seq nat)) (shape : seq nat) (nnz : nat) (seed : N) (i : nat)
  : seq N := [seq rand_word shape (coord inds i) j seed | j <- iota 0 nnz].

Definition sparse_sign_flat (inds : seq (seq nat)) (shape : seq nat) (rank nnz : nat) (seed : N)
  : res (seq int) :=
  let n := size (head [::] inds) in
  foldM (fun l i =>
      let ws := row_words inds shape nnz seed i in
      sign_row_perm ws rank i (sign_row_fill ws rank i l))
    (nseq (n * rank) (Posz 0)) (iota 0 n).

(* inds_to_sparse_sign, pyx:158-181 *)
Definition inds_to_sparse_sign (inds : seq (seq nat)) (shape : seq nat)
   (rank rank_min rank_max nnz : nat) (seed : N) : res (nd [ringType of int]) :=
  do l <- sparse_sign_flat inds shape rank nnz (mod63 seed);
  let n := size (head [::] inds) in
  do a <- @reshape [ringType of int] (Nd [:: size l] l) [:: n; rank];
  Ok (slice_ax 1 rank_min rank_max a).
