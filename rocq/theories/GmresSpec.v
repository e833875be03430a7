(* Specification for tt_gmres.py: contracts of the solvers, products with a matrix along one
   mode, the action of a linear map on a tensor. *)
From Coq Require Import String Ascii NArith.
From mathcomp Require Import all_ssreflect all_algebra.
From Verif Require Import Py Nd Tensor Spec LinSpec RecSpec SkSpec MpoSpec Mpo Gmres.
Set Implicit Arguments. Unset Strict Implicit. Unset Printing Implicit Defensive.
Import GRing.Theory Num.Theory.
Local Open Scope ring_scope.

Section GmresSpec.
Variable R : rcfType.
Notation arr := (nd R).
Notation tensor := (tensor R).
Notation allpos := (all (fun n => 0 < n)%N).

(* upper triangular *)
Definition upper_tri (T : arr) (m n : nat) : Prop := forall i j, (j < i < m)%N -> (j < n)%N -> get T [:: i; j] = 0.

(* numpy.linalg.qr: as in LinSpec.v, and R is upper triangular *)
Definition qr_tri_contract (qr : arr -> res (arr * arr)) : Prop := qr_contract qr /\
  forall A m n, is_mat A m n -> or_linalg (qr A) (fun QR => upper_tri QR.2 (minn m n) n).

(* scipy.linalg.solve_triangular: solves T X = B, LinAlgError for a zero on the diagonal *)
Definition solve_tri_contract (solve : arr -> arr -> res arr) : Prop :=
  forall T B n k, is_mat T n n -> is_mat B n k -> upper_tri T n n ->
  if all (fun i => get T [:: i; i] != 0) (iota 0 n)
  then exists2 X, solve T B = Ok X & is_mat X n k /\
         forall i j, (i < n)%N -> (j < k)%N -> \sum_(0 <= l < n) get T [:: i; l] * get X [:: l; j] = get B [:: i; j]
  else solve T B = Err LinAlgError.

(* numpy.linalg.lstsq(A, b) for more rows than columns: a least squares solution; the squared
   residual norm is returned if A has full column rank, an empty array otherwise *)
Definition np_lstsq_contract (f : arr -> arr -> res (arr * seq R)) : Prop :=
  forall A b m n, is_mat A m n -> is_vec b m -> (n < m)%N ->
  or_linalg (f A b) (fun yr =>
    let resid p := \sum_(0 <= q < n) get A [:: p; q] * get yr.1 [:: q] - get b [:: p] in
    [/\ is_vec yr.1 n,
        forall i, (i < n)%N -> \sum_(0 <= p < m) get A [:: p; i] * resid p = 0 &
        yr.2 = if \rank (amat A m n) == n then [:: \sum_(0 <= p < m) resid p ^+ 2] else [::]]).

(* the multi-index i with entry number m replaced by l *)
Definition upd (i : seq nat) (m l : nat) : seq nat := take m i ++ l :: drop m.+1 i.

(* the n x n matrix M applied to mode m of the tensor x *)
Definition mode_mul (n : nat) (M : 'M[R]_n) (m : nat) (x : seq nat -> R) (i : seq nat) : R :=
  \sum_(l < n) (if insub (nth 0%N i m) is Some k then M k l else 0) * x (upd i m l).

(* the train of rank one with entry 1 at the multi-index i and 0 elsewhere *)
Definition unit_train (s i : seq nat) : seq arr :=
  [seq tab [:: 1; nk.1; 1]%N (fun ix => if nth 0%N ix 1 == nk.2 then 1 else 0) | nk <- zip s i].
(* the entries of the matrix of a linear map of a user: entry j of the image of unit tensor i *)
Definition response (call : seq arr -> res (seq arr)) (s i j : seq nat) : R :=
  if call (unit_train s i) is Ok ys then den (TT ys) j else 0.

(* what a linear map does to a tensor x of shape s: an MPO multiplies by its matrix, a TTPrecond
   by the inverse of its matrix on its mode, a linear map of a user by the matrix whose columns are
   the images of the unit tensors *)
Definition map_act (f : ttmap R) (s : seq nat) (x : seq nat -> R) (j : seq nat) : R :=
  match f with
  | MapMpo ms => sum_idx s (fun i => mden ms i j * x i)
  | MapPre p => mode_mul (invmx (amat (p_A p) (nth 0%N s (p_mode p)) (nth 0%N s (p_mode p)))) (p_mode p) x j
  | MapUser _ _ call => sum_idx s (fun i => response call s i j * x i)
  end.

(* a valid linear map from tensors of shape s to tensors of shape t: an MPO with fitting cores,
   a preconditioner made by TTPrecond(A, s, mode) from a matrix of the size of its mode, or a map of
   a user that turns trains of shape s into trains of shape t (or raises LinAlgError), linearly, and
   does not introduce ranks 0 *)
Definition map_ok (qr : arr -> res (arr * arr)) (f : ttmap R) (s t : seq nat) : Prop :=
  match f with
  | MapMpo ms => [/\ wf_mpo ms, mpo_in ms = s & mpo_out ms = t]
  | MapPre p => [/\ s = t, (p_mode p < size s)%N, is_mat (p_A p) (nth 0%N s (p_mode p)) (nth 0%N s (p_mode p)) &
                    precond_new qr (p_A p) s (p_mode p) = Ok p]
  | MapUser ins outs call => [/\ ins = s, outs = t &
      forall cs, wf_tt cs -> tshape (TT cs) = s -> or_linalg (call cs) (fun ys =>
        [/\ wf_tt ys, tshape (TT ys) = t, allpos (tt_rank cs) -> allpos (tt_rank ys) &
            forall j, inb t j -> den (TT ys) j = sum_idx s (fun i => response call s i j * den (TT cs) i)])]
  end.

(* act is a linear function of the entries with multi-index in s, for results with index in t *)
Definition linear_on (s t : seq nat) (act : (seq nat -> R) -> seq nat -> R) : Prop :=
  (forall x y j, (forall i, inb s i -> x i = y i) -> inb t j -> act x j = act y j) /\
  (forall c x y j, inb t j -> act (fun i => c * x i + y i) j = c * act x j + act y j).

(* a sum of linear maps: the result is the sum of the results *)
Definition maps_act (fs : seq (ttmap R)) (s : seq nat) (x : seq nat -> R) (j : seq nat) : R :=
  \sum_(f <- fs) map_act f s x j.

(* the operator of the linear system solved by tt_sum_gmres: the sum of maps, followed by the
   preconditioner if there is one; the right hand side is treated in the same way *)
Definition pre_act (pre : option (precond R)) (s : seq nat) (x : seq nat -> R) (j : seq nat) : R :=
  if pre is Some p then map_act (MapPre p) s x j else x j.
Definition op_act (fs : seq (ttmap R)) (pre : option (precond R)) (s : seq nat) (x : seq nat -> R) : seq nat -> R :=
  pre_act pre s (maps_act fs s x).

(* a tensor of the given shape in train format *)
Definition is_train (s : seq nat) (X : tensor) : bool := if X is TT cs then wf_tt cs && (tshape X == s) else false.
(* a sum of at least one train of the given shape *)
Definition is_train_sum (s : seq nat) (X : tensor) : bool :=
  if X is TSum t Xs then [&& t == s, ~~ nilp Xs & all (is_train s) Xs] else false.
End GmresSpec.
