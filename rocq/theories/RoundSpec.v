(* Ghost-instrumented copies of the rounding sweeps: the same loops as in TensorNum.v,
   which also return, for every truncated bond, the list of singular values that were
   dropped.  RoundThy.v proves that erasing the second component gives back the model. *)
From Coq Require Import String Ascii.
From mathcomp Require Import all_ssreflect all_algebra.
From Verif Require Import Py Nd Utils Tensor TensorNum.
Set Implicit Arguments. Unset Strict Implicit. Unset Printing Implicit Defensive.
Import GRing.Theory Num.Theory.
Local Open Scope ring_scope.

Section RoundSpec.
Variable R : rcfType.
Notation arr := (nd R).
Variable qr : arr -> res (arr * arr).
Variable svd : arr -> res (arr * arr * arr).
Variable svd_red : arr -> res (arr * arr * arr).

(* TensorTrain.round (tensor.py:470-482) with the dropped values S[r:] *)
Fixpoint round_loop_g (eps : R) (max_rank : seq nat) (US : option arr) (rcs : seq (nat * arr))
  : res (seq arr * seq (seq R)) :=
  match rcs with
  | [::] => Ok ([::], [::])
  | (mu, C) :: rest =>
      do C1 <- match US with
               | None => Ok C
               | Some us => einsum "ijk,kl->ijl" [:: C; us]
               end;
      if (0 < mu)%N then
        do Cm <- reshape C1 [:: dim C1 0; (dim C1 1 * dim C1 2)%N];
        do usv <- svd Cm;
        let: (U, Sv, Vt) := usv in
        do k <- count_above Sv eps;
        do mr <- pyget max_rank mu.-1;
        let r := maxn 1 (minn k mr) in
        do us' <- matmul (slice_ax 1 0 r U) (diag (slice_ax 0 0 r Sv));
        do V <- reshape (slice_ax 0 0 r Vt) [:: r; dim C1 1; dim C1 2];
        do rest' <- round_loop_g eps max_rank (Some us') rest;
        Ok (V :: rest'.1, drop r (ndata Sv) :: rest'.2)
      else
        do rest' <- round_loop_g eps max_rank US rest;
        Ok (C1 :: rest'.1, rest'.2)
  end.

Definition tt_round_g (cs : seq arr) (eps : option R) (max_rank : option ttrank)
   (orthogonalized : bool) : res (seq arr * seq (seq R)) :=
  do tt1 <- (if orthogonalized then Ok cs else tt_orthogonalize qr cs);
  let eps := if eps is Some e then e else 0 in
  let mr := if max_rank is Some m then m else RTuple (tt_rank tt1) in
  do mr <- process_tt_rank mr (tshape (TT tt1)) true;
  do nc <- round_loop_g eps mr None (rev (zip (iota 0 (size tt1)) tt1));
  Ok (rev nc.1, rev nc.2).

(* tt_svd.py:10-49 with the dropped values S[r:] *)
Fixpoint tt_svd_loop_g (shape rank : seq nat) (mus : seq nat) (prev : nat) (T : arr)
  : res (seq arr * nat * arr * seq (seq R)) :=
  match mus with
  | [::] => Ok ([::], prev, T, [::])
  | mu :: mus' =>
      do M <- matricize T [:: 0; 1]%N true;
      do usv <- svd_red M;
      let: (U, Sv, V) := usv in
      do rk <- pyget rank mu;
      let r := maxn (minn (dim U 1) rk) 1 in
      do core <- reshape (slice_ax 1 0 r U) [:: prev; nth 0%N shape mu; r];
      do T1 <- diag_mul r Sv V;
      do T2 <- reshape T1 (r :: drop mu.+1 shape);
      do rec <- tt_svd_loop_g shape rank mus' r T2;
      Ok (core :: rec.1.1.1, rec.1.1.2, rec.1.2, drop r (ndata Sv) :: rec.2)
  end.

Definition tt_svd_g (X : tensor R) (rank : option ttrank) : res (seq arr * seq (seq R)) :=
  do a <- to_numpy X;
  let shape := tshape X in
  let d := size shape in
  let rank := if rank is Some r then r else RTuple (nseq d.-1 (prods shape)) in
  do rk <- process_tt_rank rank shape true;
  do M <- matricize a [:: 0%N] false;
  do usv <- svd_red M;
  let: (U, Sv, V) := usv in
  do rk0 <- pyget rk 0;
  let r := maxn (minn (dim U 1) rk0) 1 in
  do core <- reshape (slice_ax 1 0 r U) [:: 1%N; nth 0%N shape 0; r];
  do T1 <- diag_mul r Sv V;
  do T2 <- reshape T1 (r :: drop 1 shape);
  do rec <- tt_svd_loop_g shape rk (iota 1 d.-2) r T2;
  do lst <- reshape rec.1.2 [:: rec.1.1.2; nth 0%N shape d.-1; 1%N];
  Ok (core :: rec.1.1.1 ++ [:: lst], drop r (ndata Sv) :: rec.2).

(* sum of squares of all dropped values *)
Definition sum_sq (l : seq (seq R)) : R := \sum_(d <- l) \sum_(s <- d) s ^+ 2.
End RoundSpec.
