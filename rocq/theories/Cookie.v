(* Model of scripts/cookie_problem.py:35-110: the linear map CookieMap, a subclass of TTLinearMap
   written by a user of the package, and prepare_cookie_problem (definitions only).  Not modelled:
   reading the .mat file (lines 62-70): the matrices A_list, as dense arrays, and the vector b are
   arguments here; deep copies (all values are immutable). *)
From Coq Require Import String Ascii NArith.
From mathcomp Require Import all_ssreflect all_algebra.
From Verif Require Import Py Nd Utils UtilsNum Tensor Mpo Gmres.
Set Implicit Arguments. Unset Strict Implicit. Unset Printing Implicit Defensive.
Import GRing.Theory Num.Theory.
Local Open Scope ring_scope.

Section Cookie.
Variable R : rcfType.
Notation arr := (nd R).
(* np.linalg.qr *)
Variable qr : arr -> res (arr * arr).

(* cookie_call, scripts/cookie_problem.py:49-57; self.A, self.mode, self.coeffs are arguments *)
Definition cookie_call (A : arr) (mode : nat) (coeffs : arr) (cs : seq arr) : res (seq arr) :=
  do C0 <- pyget cs 0;
  do C0' <- einsum "ijk,jl->ilk" [:: C0; A];
  do cs1 <- pyset cs 0 C0';
  if mode == 0%N then Ok cs1
  else
    do C <- pyget cs1 mode;
    do C' <- einsum "ijk,j->ijk" [:: C; coeffs];
    pyset cs1 mode C'.

(* CookieMap(A, mode, shape, coeffs), 35-47 *)
Definition cookie_map (A : arr) (mode : nat) (shape : seq nat) (coeffs : arr) : ttmap R :=
  MapUser shape shape (cookie_call A mode coeffs).

(* np.ones *)
Definition nones (s : seq nat) : arr := tab s (fun=> 1).
(* np.mean of a non-empty array; the mean of an empty array (nan in numpy) is 0 here *)
Definition nmean (a : arr) : R := nsum a / (size (ndata a))%:R.

(* the coefficients of map number mu, 78-82 *)
Definition cookie_coeffs (num_coeffs mu : nat) (A : arr) : arr :=
  if mu == 0%N then nones [:: dim A 0] else linspace 0 10%:R num_coeffs.

(* prepare_cookie_problem, 61-110.  np.sum(l, axis=0), line 86, stacks the matrices, which raises
   ValueError if their shapes differ. *)
Definition prepare_cookie_problem (As : seq arr) (bmat : arr) (num_coeffs : nat) : res (mapsum R * seq arr * precond R) :=
  do b <- reshape_infer bmat [::] [::];
  do A0 <- pyget As 0;
  let shape := dim A0 0 :: nseq (size As).-1 num_coeffs in
  let enum_A := zip (iota 0 (size As)) As in
  let coeffs_list := [seq cookie_coeffs num_coeffs p.1 p.2 | p <- enum_A] in
  let A_precond_list := [seq nscale (nmean (cookie_coeffs num_coeffs p.1 p.2)) p.2 | p <- enum_A] in
  do A_precond <- (if all (fun A => nshape A == nshape A0) As then Ok (sum_axis0 (stacked A_precond_list)) else Err ValueError);
  do precond_map <- precond_new qr A_precond shape 0;
  let cookie_maps := [seq cookie_map pc.1.2 pc.1.1 shape pc.2 | pc <- zip enum_A coeffs_list] in
  do map_sum <- mapsum_new cookie_maps;
  do B0 <- reshape_infer b [:: 1%N] [:: 1%N];
  let B_cores := B0 :: [seq nones [:: 1; n; 1]%N | n <- behead shape] in
  Ok (map_sum, B_cores, precond_map).
End Cookie.
