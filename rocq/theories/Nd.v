(* A model of numpy.ndarray: a shape and the C-order (row-major) data.
   NumPy itself is not part of /repo; this file fixes the part of its documented
   behaviour that /repo uses.  Scalars are exact elements of a ring [R]
   (idealisation: float64 rounding is not modelled).  Views, dtypes and strides
   are not modelled: every operation returns a fresh C-contiguous array. *)
From Coq Require Import String Ascii.
From mathcomp Require Import all_ssreflect all_algebra.
From Verif Require Import Py.
Set Implicit Arguments. Unset Strict Implicit. Unset Printing Implicit Defensive.
Import GRing.Theory.
Local Open Scope ring_scope.

(* ------------------------------------------------------------------ *)
(* Index arithmetic                                                    *)

(* np.prod of a tuple of sizes *)
Definition prods (s : seq nat) : nat := foldr muln 1%N s.

(* np.ravel_multi_index in C order *)
Fixpoint ravel (s i : seq nat) : nat :=
  match s, i with
  | _ :: s', k :: i' => (k * prods s' + ravel s' i')%N
  | _, _ => 0%N
  end.

(* np.unravel_index in C order *)
Fixpoint unravel (s : seq nat) (p : nat) : seq nat :=
  match s with
  | [::] => [::]
  | _ :: s' => (p %/ prods s')%N :: unravel s' (p %% prods s')%N
  end.

(* [i] is a valid index of an array of shape [s] *)
Fixpoint inb (s i : seq nat) : bool :=
  match s, i with
  | [::], [::] => true
  | n :: s', k :: i' => (k < n)%N && inb s' i'
  | _, _ => false
  end.

(* sum_{i<n} f i *)
Definition sumr (R : ringType) (n : nat) (f : nat -> R) : R :=
  foldr (fun i acc => f i + acc) 0 (iota 0 n).

(* ------------------------------------------------------------------ *)
Record nd (R : Type) := Nd { nshape : seq nat; ndata : seq R }.

Definition ascii_eqMixin := EqMixin Ascii.eqb_spec.
Canonical ascii_eqType := Eval hnf in EqType ascii ascii_eqMixin.

Section Nd.
Variable R : ringType.
Implicit Types (a b : nd R) (s i : seq nat).

Definition nwf a : bool := size (ndata a) == prods (nshape a).

Definition tab s (f : seq nat -> R) : nd R :=
  Nd s [seq f (unravel s p) | p <- iota 0 (prods s)].

Definition get a i : R := nth 0 (ndata a) (ravel (nshape a) i).

Definition ndim a : nat := size (nshape a).
Definition dim a k : nat := nth 0%N (nshape a) k.

(* np.zeros(s) *)
Definition zeros s : nd R := tab s (fun _ => 0).

(* np.eye(n, n) *)
Definition eye n : nd R :=
  tab [:: n; n] (fun i => (nth 0%N i 0 == nth 0%N i 1)%:R).

(* a.reshape(s): ValueError unless the sizes agree *)
Definition reshape a s : res (nd R) :=
  if prods s == prods (nshape a) then Ok (Nd s (ndata a)) else Err ValueError.

(* a.reshape(pre + (-1,) + post): the missing size is inferred *)
Definition reshape_infer a (pre post : seq nat) : res (nd R) :=
  let known := (prods pre * prods post)%N in
  if known == 0%N then Err ValueError
  else if (known %| prods (nshape a))%N
       then reshape a (pre ++ (prods (nshape a) %/ known)%N :: post)
       else Err ValueError.

(* np.transpose(a, perm): output axis k is input axis perm[k] *)
Definition transpose a (perm : seq nat) : res (nd R) :=
  if perm_eq perm (iota 0 (ndim a)) then
    Ok (tab [seq dim a k | k <- perm]
            (fun i => get a [seq nth 0%N i (index k perm) | k <- iota 0 (ndim a)]))
  else Err ValueError.

(* M.T for a two-dimensional array (also 0/1-dimensional ones) *)
Definition tr a : nd R :=
  tab (rev (nshape a)) (fun i => get a (rev i)).

(* a * c with a Python scalar *)
Definition nscale (c : R) a : nd R := tab (nshape a) (fun i => get a i * c).

(* Broadcasting of two shapes, aligned at the last axis *)
Fixpoint bcast_rev (s t : seq nat) : option (seq nat) :=
  match s, t with
  | [::], _ => Some t
  | _, [::] => Some s
  | n :: s', m :: t' =>
      if (n == m) || (m == 1%N) then omap (cons n) (bcast_rev s' t')
      else if n == 1%N then omap (cons m) (bcast_rev s' t') else None
  end.
Definition bcast s t : option (seq nat) := omap rev (bcast_rev (rev s) (rev t)).

(* the element of [a] used at position [i] of a broadcast result *)
Definition getb a i : R :=
  get a [seq (if p.1 == 1%N then 0%N else p.2) |
          p <- zip (nshape a) (drop (size i - ndim a) i)].

(* elementwise binary operation with broadcasting *)
Definition elementwise (op : R -> R -> R) a b : res (nd R) :=
  match bcast (nshape a) (nshape b) with
  | Some s => Ok (tab s (fun i => op (getb a i) (getb b i)))
  | None => Err ValueError
  end.
Definition nadd := elementwise (fun x y => x + y).
Definition nsub := elementwise (fun x y => x - y).
Definition nmul := elementwise (fun x y => x * y).

(* In-place a += b: b must broadcast to the shape of a *)
Definition iadd a b : res (nd R) :=
  if bcast (nshape a) (nshape b) == Some (nshape a) then nadd a b
  else Err ValueError.

(* a @ b, for one- and two-dimensional operands; inner sizes must agree exactly *)
Definition matmul a b : res (nd R) :=
  match nshape a, nshape b with
  | [:: m; k], [:: k'; n] =>
      if k == k' then
        Ok (tab [:: m; n] (fun i => sumr k (fun l =>
              get a [:: nth 0%N i 0; l] * get b [:: l; nth 0%N i 1])))
      else Err ValueError
  | [:: k], [:: k'; n] =>
      if k == k' then
        Ok (tab [:: n] (fun i => sumr k (fun l =>
              get a [:: l] * get b [:: l; nth 0%N i 0])))
      else Err ValueError
  | [:: m; k], [:: k'] =>
      if k == k' then
        Ok (tab [:: m] (fun i => sumr k (fun l =>
              get a [:: nth 0%N i 0; l] * get b [:: l])))
      else Err ValueError
  | [:: k], [:: k'] =>
      if k == k' then
        Ok (tab [::] (fun _ => sumr k (fun l => get a [:: l] * get b [:: l])))
      else Err ValueError
  | _, _ => Err ValueError
  end.

(* np.dot of two flat vectors *)
Definition vdot a b : res R :=
  match nshape a, nshape b with
  | [:: k], [:: k'] =>
      if k == k' then Ok (sumr k (fun l => get a [:: l] * get b [:: l]))
      else Err ValueError
  | _, _ => Err ValueError
  end.

(* np.sum(a) *)
Definition nsum a : R := foldr +%R 0 (ndata a).

(* np.concatenate((a, b), axis=k): all other sizes must agree *)
Definition concat_ax (k : nat) a b : res (nd R) :=
  if [&& ndim a == ndim b, (k < ndim a)%N &
         set_nth 0%N (nshape a) k 0%N == set_nth 0%N (nshape b) k 0%N]
  then Ok (tab (set_nth 0%N (nshape a) k (dim a k + dim b k)%N)
        (fun i => if (nth 0%N i k < dim a k)%N then get a i
                  else get b (set_nth 0%N i k (nth 0%N i k - dim a k)%N)))
  else Err ValueError.

(* a[:, ..., lo:hi, ..., :] along axis k, with Python clipping of the bounds *)
Definition slice_ax (k lo hi : nat) a : nd R :=
  let hi' := minn hi (dim a k) in
  let lo' := minn lo hi' in
  tab (set_nth 0%N (nshape a) k (hi' - lo')%N)
      (fun i => get a (set_nth 0%N i k (lo' + nth 0%N i k)%N)).

(* a[:, ..., j, ..., :] along axis k (the axis disappears) *)
Definition pick_ax (k j : nat) a : res (nd R) :=
  if (j < dim a k)%N then
    Ok (tab (take k (nshape a) ++ drop k.+1 (nshape a))
            (fun i => get a (take k i ++ j :: drop k i)))
  else Err IndexError.

(* a[:, ..., js, ..., :] along axis k with a list of indices *)
Definition take_ax (k : nat) (js : seq nat) a : res (nd R) :=
  if all (fun j => (j < dim a k)%N) js then
    Ok (tab (set_nth 0%N (nshape a) k (size js))
            (fun i => get a (set_nth 0%N i k (nth 0%N js (nth 0%N i k)))))
  else Err IndexError.

(* np.diag(v) of a vector *)
Definition diag a : nd R :=
  tab [:: dim a 0; dim a 0]
      (fun i => if nth 0%N i 0 == nth 0%N i 1 then get a [:: nth 0%N i 0] else 0).

(* Assignment X[idx] = v at one multi-index *)
Definition set1 a i (v : R) : res (nd R) :=
  if inb (nshape a) i
  then Ok (Nd (nshape a) (set_nth 0 (ndata a) (ravel (nshape a) i) v))
  else Err IndexError.

(* sum of squares, i.e. np.linalg.norm(a)**2 *)
Definition sqnorm a : R := foldr (fun x acc => x * x + acc) 0 (ndata a).

(* ------------------------------------------------------------------ *)
(* np.einsum(spec, *ops) in explicit mode, e.g. "ij,jkl->ikl".          *)

Definition label := ascii.
Definition dimmap := seq (label * nat).

Fixpoint lookup (m : dimmap) (l : label) : nat :=
  match m with
  | [::] => 0%N
  | (l', n) :: m' => if l == l' then n else lookup m' l
  end.

(* Record that label [l] has size [n]; size-1 axes broadcast. *)
Fixpoint add_dim (m : dimmap) (l : label) (n : nat) : res dimmap :=
  match m with
  | [::] => Ok [:: (l, n)]
  | (l', d) :: m' =>
      if l == l' then
        if d == 1%N then Ok ((l', n) :: m')
        else if (n == 1%N) || (n == d) then Ok m else Err ValueError
      else do m'' <- add_dim m' l n; Ok ((l', d) :: m'')
  end.

Definition add_operand (m : dimmap) (p : seq label * nd R) : res dimmap :=
  if size p.1 == ndim p.2
  then foldM (fun m ln => add_dim m ln.1 ln.2) m (zip p.1 (nshape p.2))
  else Err ValueError.

(* sum over all values of the labels in [ls] *)
Fixpoint sum_lbl (ls : dimmap) (env : dimmap) (f : dimmap -> R) : R :=
  match ls with
  | [::] => f env
  | (l, n) :: ls' => sumr n (fun k => sum_lbl ls' ((l, k) :: env) f)
  end.

Definition einsum_lbl (ins : seq (seq label)) (out : seq label) (ops : seq (nd R))
  : res (nd R) :=
  if size ins == size ops then
    do dims <- foldM add_operand [::] (zip ins ops);
    if all (fun l => l \in unzip1 dims) out && uniq out then
      let summed := [seq p <- dims | p.1 \notin out] in
      Ok (tab [seq lookup dims l | l <- out] (fun idx =>
            sum_lbl summed (zip out idx) (fun env =>
              foldr (fun p acc => getb p.2 [seq lookup env l | l <- p.1] * acc)
                    1 (zip ins ops))))
    else Err ValueError
  else Err ValueError.

(* parsing of the subscripts string *)
Fixpoint parse_ins (cur : seq label) (s : string) : seq (seq label) * seq label :=
  match s with
  | EmptyString => ([:: rev cur], [::])
  | String c s' =>
      if c == ","%char then
        let r := parse_ins [::] s' in (rev cur :: r.1, r.2)
      else if c == "-"%char then
        ([:: rev cur], match s' with
                       | String _ s'' => list_ascii_of_string s''
                       | EmptyString => [::]
                       end)
      else parse_ins (c :: cur) s'
  end.

Definition einsum (spec : string) (ops : seq (nd R)) : res (nd R) :=
  let p := parse_ins [::] spec in einsum_lbl p.1 p.2 ops.

(* np.einsum with a leading ellipsis "...j,<B>->...<out>": the axes matched by the
   ellipsis are merged into one label 'E' (C order), contracted, and split again.
   [spec] is written with 'E' in place of "...". *)
Definition einsum_ell (spec : string) a b : res (nd R) :=
  let lead := take (ndim a).-1 (nshape a) in
  do a2 <- reshape a [:: prods lead; last 0%N (nshape a)];
  do c <- einsum spec [:: a2; b];
  reshape c (lead ++ behead (nshape c)).

End Nd.
