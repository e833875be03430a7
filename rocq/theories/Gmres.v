(* Model of tt_sketch/tt_gmres.py:137-432: TTPrecond, TTLinearMapSum, round_tt_sum and
   tt_sum_gmres (definitions only).  Scalars are exact real numbers.  Not modelled: timings,
   logging, deep copies (all values are immutable here), negative mode numbers. *)
From Coq Require Import String Ascii NArith.
From mathcomp Require Import all_ssreflect all_algebra.
From Verif Require Import Py Nd Utils Tensor TensorNum Sketch Mpo.
Set Implicit Arguments. Unset Strict Implicit. Unset Printing Implicit Defensive.
Import GRing.Theory Num.Theory.
Local Open Scope ring_scope.

(* ROUNDING_MODE, tt_gmres.py:257; ROther stands for any other value *)
Inductive rounding := RExact | RPairwise | RSketch | ROrthSketch | RNone | ROther.

(* TTPrecond objects, tt_gmres.py:137-149 (in_shape = out_shape = shape) *)
Record precond (R : Type) := Precond {
  p_A : nd R; p_Q : nd R; p_R : nd R; p_mode : nat; p_shape : seq nat }.

(* TTLinearMap objects, tt_gmres.py:30-40: the two subclasses of the package, and subclasses written
   by a user (as CookieMap in scripts/cookie_problem.py), which have the attributes in_shape and
   out_shape and the method __call__, here as a function of the cores of its argument *)
Inductive ttmap (R : Type) := MapMpo (ms : seq (nd R)) | MapPre (p : precond R)
  | MapUser (ins outs : seq nat) (call : seq (nd R) -> res (seq (nd R))).

(* TTLinearMapSum objects, tt_gmres.py:171-185 *)
Record mapsum (R : Type) := MapSum { m_maps : seq (ttmap R); m_in : seq nat; m_out : seq nat }.

(* What tt_sum_gmres returns: the solution and the history dictionary; H_matrix, nu_list and y
   are in the dictionary when save_basis=True.  None stands for inf or nan.  [g_trace] is not
   returned by the code: the arguments and results of all calls of round_tt_sum, in order. *)
Record gmres_out (R : Type) := GmresOut {
  g_x : tensor R;
  g_w_norm : seq (option R);
  g_rank : seq (seq nat);
  g_residual_norm : seq (option R);
  g_delta : seq R;
  g_H : nd R;
  g_nu : seq (tensor R);
  g_y : nd R;
  g_trace : seq (tensor R * tensor R) }.

(* The variables changed by the loop of tt_sum_gmres *)
Record gmres_state (R : Type) := GmresState {
  s_nu : seq (option (tensor R));     (* None: divided by zero *)
  s_H : nd R;
  s_res : R;                          (* residual_norm *)
  s_y : option (nd R);                (* unbound before the first iteration *)
  s_w_norm : seq (option R);
  s_rank : seq (seq nat);
  s_hres : seq (option R);
  s_delta : seq R;
  s_trace : seq (tensor R * tensor R) }.

Section Gmres.
Variable R : rcfType.
Notation arr := (nd R).
Notation tensor := (tensor R).
Notation precond := (precond R).
Notation ttmap := (ttmap R).
Notation mapsum := (mapsum R).

(* np.linalg.qr, np.linalg.svd *)
Variable qr : arr -> res (arr * arr).
Variable svd : arr -> res (arr * arr * arr).
(* scipy.linalg.solve_triangular(R, B) for a square R and B with as many rows *)
Variable solve_tri : arr -> arr -> res arr.

(* ---- TTPrecond, tt_gmres.py:137-168 ---- *)
Definition precond_new (A : arr) (shape : seq nat) (mode : nat) : res precond :=
  do QR <- qr A; Ok (Precond A QR.1 QR.2 mode shape).

(* scipy.linalg.solve_triangular: argument checks, then the solver *)
Definition solve_triangular (T B : arr) : res arr :=
  if [&& (ndim T == 2)%N, dim T 0 == dim T 1 & dim T 0 == dim B 0] then solve_tri T B else Err ValueError.

(* backward_call, tt_gmres.py:151-157 *)
Definition precond_backward (p : precond) (cs : seq arr) : res (seq arr) :=
  do C <- pyget cs (p_mode p);
  do M <- matricize C [:: 1%N] true;
  do B <- matmul (tr (p_Q p)) M;
  do sol <- solve_triangular (p_R p) B;
  do C' <- dematricize sol 1 (nshape C);
  pyset cs (p_mode p) C'.

(* forward_call, tt_gmres.py:159-166 *)
Definition precond_forward (p : precond) (cs : seq arr) : res (seq arr) :=
  do C <- pyget cs (p_mode p);
  do M <- matricize C [:: 1%N] true;
  do B <- matmul (p_A p) M;
  do C' <- dematricize B 1 (nshape C);
  pyset cs (p_mode p) C'.

(* ---- TTLinearMapSum, tt_gmres.py:171-206 ---- *)
Definition map_in (f : ttmap) : seq nat := match f with MapMpo ms => mpo_in ms | MapPre p => p_shape p | MapUser s _ _ => s end.
Definition map_out (f : ttmap) : seq nat := match f with MapMpo ms => mpo_out ms | MapPre p => p_shape p | MapUser _ t _ => t end.
(* f(x): 91-101 and 168 *)
Definition map_call (f : ttmap) (cs : seq arr) : res (seq arr) :=
  match f with MapMpo ms => mpo_call ms cs | MapPre p => precond_backward p cs | MapUser _ _ call => call cs end.

(* __init__, 181-191 *)
Definition mapsum_new (fs : seq ttmap) : res mapsum :=
  match fs with
  | [::] => Err ValueError
  | f :: fs' =>
      do _ <- foldM (fun _ g => if map_in g != map_in f then Err ValueError
                                else if map_out g != map_out f then Err ValueError
                                else Ok tt) tt fs';
      Ok (MapSum fs (map_in f) (map_out f))
  end.

(* the cores attribute of a train; the annotations only allow trains *)
Definition cores_of (X : tensor) : res (seq arr) := if X is TT cs then Ok cs else Err AttributeError.
(* the tensors attribute of a sum *)
Definition tensors_of (X : tensor) : res (seq tensor) := if X is TSum _ Xs then Ok Xs else Err AttributeError.

(* __call__, 193-206 *)
Definition mapsum_call (A : mapsum) (X : tensor) : res tensor :=
  do tensor_list <- (if X is TT _ then Ok [:: X] else tensors_of X);
  do output_list <- mapM (fun p : ttmap * tensor => do cs <- cores_of p.2; do ys <- map_call p.1 cs; Ok (TT ys))
                         [seq (f, Y) | f <- m_maps A, Y <- tensor_list];
  mk_sum output_list.

(* ---- round_tt_sum, tt_gmres.py:260-305 ---- *)
(* oracles of the sketches, see Sketch.v *)
Variable to_normal : N -> R.
Variable tt_random : seq nat -> seq nat -> N -> seq arr.
Variable stream : N -> nat -> R.
Variable offset : N -> nat -> N.
Variable right_seed_of : N -> nat -> N.
Variable lstsq : arr -> arr -> res arr.
Variable qr_econ : arr -> res (arr * arr).

(* ceil(r * oversample_factor); the factor is a non-negative fraction (numerator, denominator) *)
Definition ceil_mul (r : nat) (f : nat * nat) : nat := ((r * f.1 + f.2.-1) %/ f.2)%N.
Definition oversampled (f : nat * nat) (rk : seq nat) : seq nat := [seq ceil_mul r f | r <- rk].

(* summands[0].add(summands[1])...; each step followed by [post] *)
Definition add_all (post : seq arr -> res (seq arr)) (Xs : seq tensor) : res (seq arr) :=
  match Xs with
  | [::] => Err IndexError
  | X :: Xs' =>
      do cs0 <- cores_of X;
      foldM (fun cs Y => do ds <- cores_of Y; do es <- tt_add cs ds; post es) cs0 Xs'
  end.

(* [ent]: entropy used by the sketches of this call *)
Definition round_tt_sum (ent : nat -> N) (X : tensor) (max_rank : ttrank) (eps : option R)
   (method : rounding) (oversample_factor : nat * nat) : res tensor :=
  match method with
  | RExact =>                                                     (* 276-281 *)
      do Xs <- tensors_of X;
      do cs <- add_all (fun cs => Ok cs) Xs;
      do out <- tt_round qr svd cs eps (Some max_rank) false; Ok (TT out)
  | RPairwise =>                                                  (* 282-285 *)
      do Xs <- tensors_of X;
      do cs <- add_all (fun cs => tt_round qr svd cs eps (Some max_rank) false) Xs; Ok (TT cs)
  | RSketch =>                                                    (* 286-292 *)
      do left_rank <- process_tt_rank max_rank (tshape X) true;
      let right_rank := oversampled oversample_factor left_rank in
      do st <- stream_sketch to_normal tt_random stream offset right_seed_of lstsq qr_econ
                 X (RTuple left_rank) (RTuple right_rank) None None None None None ent;
      do cs <- stt_to_tt lstsq st; Ok (TT cs)
  | ROrthSketch =>                                                (* 293-299 *)
      do left_rank <- process_tt_rank max_rank (tshape X) true;
      let right_rank := oversampled oversample_factor left_rank in
      do cs <- orthogonal_sketch to_normal tt_random stream offset right_seed_of lstsq qr_econ
                 X (RTuple left_rank) (RTuple right_rank) None None None None None ent;
      Ok (TT cs)
  | RNone => Ok X                                                 (* 300-301 *)
  | ROther => Err ValueError                                      (* 302-303 *)
  end.

(* ---- tt_sum_gmres, tt_gmres.py:308-432 ---- *)
(* np.linalg.lstsq(H, e, rcond=None): the solution and the array of residuals *)
Variable np_lstsq : arr -> arr -> res (arr * seq R).
(* entropy of the successive sketches *)
Variable ent : nat -> nat -> N.

Definition round_call (callno : nat) (X : tensor) (max_rank : ttrank) (eps : option R) (method : rounding) :=
  round_tt_sum (ent callno) X max_rank eps method (2, 1)%N.

(* x / y for NumPy floats: inf or nan when y = 0 *)
Definition fdiv (x y : R) : option R := if y == 0 then None else Some (x / y).
(* X / c for a NumPy float c: entries inf or nan when c = 0 *)
Definition tdivf (X : tensor) (c : R) : res (option tensor) :=
  if c == 0 then Ok None else do Y <- tmul X (1 / c); Ok (Some Y).
(* using a tensor with entries inf or nan *)
Definition finite (A : Type) (o : option A) : res A := if o is Some a then Ok a else Err NonFinite.
Definition rank_of (X : tensor) : res (seq nat) := if X is TT cs then Ok (tt_rank cs) else Err AttributeError.
(* X.norm() and X.dot(Y); the call stack of dot is at most 4 deep here *)
Definition norm_of (X : tensor) : res R := tnorm qr 4 X.
Definition dot_of (X Y : tensor) : res R := if dot 4 X Y false is Some r then r else Err RecursionError.

Section Loop.
Variables (A : mapsum) (pre : option precond) (max_rank : seq nat) (tolerance : R) (symmetric : bool)
  (rounding_method : rounding) (beta b_norm : R).

(* apply_A_pr, 347-351 *)
Definition apply_A_pr (X : tensor) : res tensor :=
  do Y <- mapsum_call A X;
  if pre is Some p then
    do Ys <- tensors_of Y;
    do Zs <- mapM (fun Z => do cs <- cores_of Z; do zs <- precond_backward p cs; Ok (TT zs)) Ys;
    mk_sum Zs
  else Ok Y.

(* One iteration, 373-412; returns the new state and whether the loop is left *)
Definition gmres_step (st : gmres_state R) (j : nat) : res (gmres_state R * bool) :=
  do last_nu <- finite (last None (s_nu st));
  do delta <- finite (if fdiv (s_res st) beta is Some q then fdiv tolerance q else None);   (* 374 *)
  do w_sum <- apply_A_pr last_nu;
  do w1 <- round_call (2 * j + 1) w_sum (RTuple max_rank) (Some delta) rounding_method;     (* 380-382 *)
  let min_j := if symmetric then (j - 2)%N else 0%N in                                      (* 384 *)
  let ks := iota min_j (j.+1 - min_j) in
  do H <- foldM (fun H i => do nu <- finite (nth None (s_nu st) i);                         (* 385-386 *)
                            do h <- dot_of w1 nu; set1 H [:: i; j] h) (s_H st) ks;
  do nus <- mapM (fun i => finite (nth None (s_nu st) i)) ks;
  do Sm <- sum_mul_list nus [seq get H [:: i; j] | i <- ks];                                 (* 391 *)
  do w_sum' <- tsub w1 Sm;
  do w2 <- round_call (2 * j + 2) w_sum' (RTuple max_rank) (Some delta) rounding_method;    (* 393-395 *)
  do h <- norm_of w2;
  do H' <- set1 H [:: j.+1; j] h;                                                           (* 396 *)
  do nu' <- tdivf w2 h;                                                                     (* 397 *)
  let H_red := slice_ax 0 0 j.+2 (slice_ax 1 0 j.+1 H') in                                  (* 401 *)
  do e1 <- set1 (zeros R [:: j.+2]) [:: 0%N] beta;                                          (* 402-403 *)
  do yr <- np_lstsq H_red e1;                                                               (* 404 *)
  do rsq <- (if yr.2 is [:: r] then Ok r else Err ValueError);
  do rk <- rank_of w2;                                                                      (* 407 *)
  Ok (GmresState (rcons (s_nu st) nu') H' rsq (Some yr.1)
        (rcons (s_w_norm st) (Some h)) (rcons (s_rank st) rk)
        (rcons (s_hres st) (fdiv (Num.sqrt rsq) b_norm)) (rcons (s_delta st) delta)
        (s_trace st ++ [:: (w_sum, w1); (w_sum', w2)]),
      if fdiv rsq b_norm is Some q then q < tolerance else false).                          (* 411 *)

(* 372-412: for j in range(j, j + n) with break; also the value of j after the loop *)
Fixpoint gmres_loop (st : gmres_state R) (j n : nat) : res (gmres_state R) :=
  match n with
  | 0%N => Ok st
  | n'.+1 => do r <- gmres_step st j;
             if r.2 then Ok r.1 else gmres_loop r.1 j.+1 n'
  end.
End Loop.

Definition tt_sum_gmres (A : mapsum) (b : seq arr) (max_rank : ttrank) (pre : option precond)
   (final_round_rank : option ttrank) (x0 : option (seq arr)) (tolerance : R) (maxiter : nat)
   (symmetric : bool) (rounding_method rounding_method_final : rounding) : res (gmres_out R) :=
  let final_round_rank := if final_round_rank is Some r then r else max_rank in              (* 330-331 *)
  let rounding_method_final :=                                                               (* 332-333 *)
    if rounding_method_final is RNone then rounding_method else rounding_method_final in
  if m_out A != tshape (TT b) then Err ValueError else                                       (* 334-339 *)
  if (if x0 is Some cs then tshape (TT cs) != m_in A else false) then Err ValueError else
  if m_out A != m_in A then Err ValueError else
  do mr <- process_tt_rank max_rank (m_in A) true;                                           (* 341 *)
  do x0 <- (if x0 is Some cs then Ok cs else tt_zero R (m_in A) (RInt 1));                   (* 342-345 *)
  do b_pr <- (if pre is Some p then precond_backward p b else Ok b);                         (* 353 *)
  do b_norm <- norm_of (TT b);
  do Ax0 <- apply_A_pr A pre (TT x0);
  do residual <- tsub (TT b_pr) Ax0;                                                         (* 357 *)
  do r0 <- round_call 0 residual (RTuple mr) None rounding_method;
  do beta <- norm_of r0;
  do nu0 <- tdivf r0 beta;                                                                   (* 363 *)
  do w0 <- (if nu0 is Some nu then do n <- norm_of nu; Ok (Some n) else Ok None);            (* 367 *)
  do rk0 <- rank_of r0;
  let st0 := GmresState [:: nu0] (zeros R [:: maxiter.+1; maxiter]) beta None [:: w0] [:: rk0]
               [:: fdiv beta b_norm] [::] [:: (residual, r0)] in
  do st <- gmres_loop A pre mr tolerance symmetric rounding_method beta b_norm st0 0 maxiter;
  do y <- (if s_y st is Some y then Ok y else Err UnboundLocalError);                        (* 415 *)
  let k := size (s_delta st) in                                   (* the number of iterations, j + 1 *)
  do nus <- mapM (@finite _) (take k (s_nu st));                                             (* 416 *)
  do Sm <- sum_mul_list nus (take k (ndata y));                                               (* 418 *)
  do result <- tadd (TT x0) Sm;
  do x <- round_call (2 * maxiter + 1) result final_round_rank None rounding_method_final;   (* 419-424 *)
  Ok (GmresOut x (s_w_norm st) (s_rank st) (s_hres st) (s_delta st) (s_H st) nus y
        (rcons (s_trace st) (result, x))).
End Gmres.
