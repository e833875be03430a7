(* Model of the numerical part of tt_sketch/tensor.py and of tt_sketch/tt_svd.py
   (definitions only).  Scalars are elements of a real closed field (exact real numbers
   with square roots; float64 rounding is not modelled).  LAPACK factorizations are
   parameters ([qr], [svd], ...): functions from arrays to their results or an exception;
   the theorems assume only the mathematical contracts stated in LinSpec.v. *)
From Coq Require Import String Ascii.
From mathcomp Require Import all_ssreflect all_algebra.
From Verif Require Import Py Nd Utils Tensor.
Set Implicit Arguments. Unset Strict Implicit. Unset Printing Implicit Defensive.
Import GRing.Theory Num.Theory.
Local Open Scope ring_scope.

Section TensorNum.
Variable R : rcfType.
Notation arr := (nd R).
Notation tensor := (tensor R).

(* np.linalg.norm(a) of an array of any shape *)
Definition nnorm (a : arr) : R := Num.sqrt (sqnorm a).
(* np.linalg.norm of a flat list of entries *)
Definition lnorm (l : seq R) : R := Num.sqrt (foldr (fun x acc => x * x + acc) 0 l).

(* X / c, tensor.py:112-113: 1 / other raises ZeroDivisionError for a Python scalar 0 *)
Definition tdiv (X : tensor) (c : R) : res tensor :=
  if c == 0 then Err ZeroDivisionError else tmul X (1 / c).

(* ------------------------------------------------------------------ *)
(* np.linalg.qr (reduced) *)
Variable qr : arr -> res (arr * arr).
(* np.linalg.svd(A): full U (m x m), singular values (min(m,n)), full Vt (n x n) *)
Variable svd : arr -> res (arr * arr * arr).
(* np.linalg.svd(A, full_matrices=False): U (m x k), S (k), Vt (k x n), k = min(m,n) *)
Variable svd_red : arr -> res (arr * arr * arr).

(* TensorTrain.orthogonalize, tensor.py:559-572.  [Rm] is None in the first iteration;
   the last iteration is recognised by the list being exhausted. *)
Fixpoint tt_orth_loop (Rm : option arr) (cs : seq arr) : res (seq arr) :=
  match cs with
  | [::] => Ok [::]
  | C :: cs' =>
      do C1 <- match Rm with
               | None => Ok C
               | Some Rm => einsum "ij,jkl->ikl" [:: Rm; C]
               end;
      if nilp cs' then Ok [:: C1] else
      do Cm <- reshape C1 [:: (dim C1 0 * dim C1 1)%N; dim C1 2];
      do QR <- qr Cm;
      do Q <- reshape_infer QR.1 [:: dim C1 0; dim C1 1] [::];
      do rest <- tt_orth_loop (Some QR.2) cs';
      Ok (Q :: rest)
  end.
Definition tt_orthogonalize (cs : seq arr) : res (seq arr) := tt_orth_loop None cs.

(* TensorTrain.norm, tensor.py:442-444 *)
Definition tt_norm (cs : seq arr) : res R :=
  do os <- tt_orthogonalize cs;
  if os is C0 :: _ then Ok (nnorm (last C0 os)) else Err IndexError.

(* X.norm() by class: Tensor.norm (131-134), SparseTensor.norm (241-242),
   TensorTrain.norm.  [fuel] as in [dot]. *)
Definition tnorm (fuel : nat) (X : tensor) : res R :=
  match X with
  | Sparse _ _ vals => Ok (lnorm vals)
  | TT cs => tt_norm cs
  | _ => match dot fuel X X false with
         | Some r => do v <- r; Ok (Num.sqrt `|v|)
         | None => Err RecursionError
         end
  end.

(* The end of both [error] methods, tensor.py:75-81 and 601-607; None is np.inf *)
Definition error_tail (error : R) (other_norm : res R) (relative rmse : bool) (shape : seq nat)
  : res (option R) :=
  do e <- (if relative then
             do n <- other_norm;
             if n == 0 then Ok None else Ok (Some (error / n))
           else Ok (Some error));
  Ok (match e with
      | None => None
      | Some e => Some (if rmse then e / Num.sqrt (prods shape)%:R else e)
      end).

(* Tensor.error, tensor.py:52-81, for a Tensor argument.  For fast=True and two zero
   tensors 2*dot/norm_sum is 0/0: NaN for NumPy scalars, an exception for Python floats;
   modelled as ZeroDivisionError. *)
Definition tensor_error (fuel : nat) (X Y : tensor) (relative rmse fast : bool)
  : res (option R) :=
  do other_norm <- tnorm fuel Y;
  do e <- (if fast then
             do self_norm <- tnorm fuel X;
             do d <- match dot fuel X Y false with Some r => r | None => Err RecursionError end;
             let norm_sum := self_norm ^+ 2 + other_norm ^+ 2 in
             if norm_sum == 0 then Err ZeroDivisionError
             else Ok (Num.sqrt norm_sum * Num.sqrt `|1 - 2%:R * d / norm_sum|)
           else
             do a <- to_numpy X; do b <- to_numpy Y; do c <- nsub a b;
             Ok (nnorm c));
  error_tail e (Ok other_norm) relative rmse (tshape X).

(* TensorTrain.error of two trains, tensor.py:596-608 (the [fast] flag is not used) *)
Definition tt_error (cs1 cs2 : seq arr) (relative rmse : bool) : res (option R) :=
  do neg <- tneg (TT cs2);
  if neg is TT ncs then
    do s <- tt_add cs1 ncs;
    do e <- tt_norm s;
    error_tail e (tt_norm cs2) relative rmse (tshape (TT cs1))
  else Err TypeError.

(* X.error(Y) for the classes of tensor.py *)
Definition terror (fuel : nat) (X Y : tensor) (relative rmse fast : bool) : res (option R) :=
  match X, Y with
  | TT cs1, TT cs2 => tt_error cs1 cs2 relative rmse
  | _, _ => tensor_error fuel X Y relative rmse fast
  end.

(* ------------------------------------------------------------------ *)
(* TensorTrain.round, tensor.py:446-484                                *)

(* np.sum(S > S[0] * eps) *)
Definition count_above (Sv : arr) (eps : R) : res nat :=
  match ndata Sv with
  | [::] => Err IndexError
  | s0 :: _ => Ok (count (fun s => s0 * eps < s) (ndata Sv))
  end.

(* tensor.py:470-482: the loop over list(enumerate(cores))[::-1]; the new cores are
   produced in the order in which they are appended (last core first) *)
Fixpoint round_loop (eps : R) (max_rank : seq nat) (US : option arr) (rcs : seq (nat * arr))
  : res (seq arr) :=
  match rcs with
  | [::] => Ok [::]
  | (mu, C) :: rest =>
      do C1 <- match US with
               | None => Ok C
               | Some us => einsum "ijk,kl->ijl" [:: C; us]
               end;
      if (0 < mu)%N then
        do Cm <- reshape C1 [:: dim C1 0; (dim C1 1 * dim C1 2)%N];
        do usv <- svd Cm;
        let: (U, Sv, Vt) := usv in
        do k <- count_above Sv eps;
        do mr <- pyget max_rank mu.-1;
        let r := maxn 1 (minn k mr) in
        do us' <- matmul (slice_ax 1 0 r U) (diag (slice_ax 0 0 r Sv));
        do V <- reshape (slice_ax 0 0 r Vt) [:: r; dim C1 1; dim C1 2];
        do rest' <- round_loop eps max_rank (Some us') rest;
        Ok (V :: rest')
      else
        do rest' <- round_loop eps max_rank US rest;
        Ok (C1 :: rest')
  end.

Definition tt_round (cs : seq arr) (eps : option R) (max_rank : option ttrank)
   (orthogonalized : bool) : res (seq arr) :=
  do tt1 <- (if orthogonalized then Ok cs else tt_orthogonalize cs);
  let eps := if eps is Some e then e else 0 in
  let mr := if max_rank is Some m then m else RTuple (tt_rank tt1) in
  do mr <- process_tt_rank mr (tshape (TT tt1)) true;
  do new_cores <- round_loop eps mr None (rev (zip (iota 0 (size tt1)) tt1));
  Ok (rev new_cores).

(* TensorTrain.svdvals, tensor.py:486-505 *)
Fixpoint svdvals_loop (US : option (arr * arr)) (rcs : seq (nat * arr)) : res (seq arr) :=
  match rcs with
  | [::] => Ok [::]
  | (mu, C) :: rest =>
      do C1 <- match US with
               | None => Ok C
               | Some (U, Sv) => do us <- matmul U (diag Sv); einsum "ijk,kl->ijl" [:: C; us]
               end;
      do Cm <- (if (0 < mu)%N then reshape C1 [:: dim C1 0; (dim C1 1 * dim C1 2)%N]
                else reshape C1 [:: (dim C1 0 * dim C1 1)%N; dim C1 2]);
      do usv <- svd Cm;
      let: (U, Sv, _) := usv in
      do rest' <- svdvals_loop (Some (U, Sv)) rest;
      Ok (Sv :: rest')
  end.
Definition tt_svdvals (cs : seq arr) : res (seq arr) :=
  do tt1 <- tt_orthogonalize cs;
  do sv <- svdvals_loop None (rev (zip (iota 0 (size tt1)) tt1));
  Ok (rev sv).

(* ------------------------------------------------------------------ *)
(* tt_svd.py:10-49                                                     *)

(* np.diag(S[:r]) @ V[:r, :] *)
Definition diag_mul (r : nat) (Sv V : arr) : res arr :=
  matmul (diag (slice_ax 0 0 r Sv)) (slice_ax 0 0 r V).

(* 30-41, the loop over mu = 1 .. d-2; [prev] is new_rank[mu-1] *)
Fixpoint tt_svd_loop (shape rank : seq nat) (mus : seq nat) (prev : nat) (T : arr)
  : res (seq arr * nat * arr) :=
  match mus with
  | [::] => Ok ([::], prev, T)
  | mu :: mus' =>
      do M <- matricize T [:: 0; 1]%N true;
      do usv <- svd_red M;
      let: (U, Sv, V) := usv in
      do rk <- pyget rank mu;
      let r := maxn (minn (dim U 1) rk) 1 in
      do core <- reshape (slice_ax 1 0 r U) [:: prev; nth 0%N shape mu; r];
      do T1 <- diag_mul r Sv V;
      do T2 <- reshape T1 (r :: drop mu.+1 shape);
      do rec <- tt_svd_loop shape rank mus' r T2;
      Ok (core :: rec.1.1, rec.1.2, rec.2)
  end.

Definition tt_svd (X : tensor) (rank : option ttrank) : res (seq arr) :=
  do a <- to_numpy X;
  let shape := tshape X in
  let d := size shape in
  let rank := if rank is Some r then r else RTuple (nseq d.-1 (prods shape)) in
  do rk <- process_tt_rank rank shape true;
  do M <- matricize a [:: 0%N] false;
  do usv <- svd_red M;
  let: (U, Sv, V) := usv in
  do rk0 <- pyget rk 0;
  let r := maxn (minn (dim U 1) rk0) 1 in
  do core <- reshape (slice_ax 1 0 r U) [:: 1%N; nth 0%N shape 0; r];
  do T1 <- diag_mul r Sv V;
  do T2 <- reshape T1 (r :: drop 1 shape);
  do rec <- tt_svd_loop shape rk (iota 1 d.-2) r T2;
  do lst <- reshape rec.2 [:: rec.1.2; nth 0%N shape d.-1; 1%N];
  Ok (core :: rec.1.1 ++ [:: lst]).

End TensorNum.
