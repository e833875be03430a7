(* The object-and-buffer level of tt_sketch/tensor.py (definitions only).

   Tensor.v models every tensor by its value.  This file models the objects the
   code really manipulates: NumPy buffers shared between views, Python lists of
   arrays ([cores], [factors]) and of tensors ([TensorSum.tensors]) that are
   stored by reference, attributes computed once by the constructors ([shape],
   [rank]) and the [cached_property] of SparseTensor.  Every method is modelled
   with the aliasing of the code: which part of the result is fresh and which
   part is shared with the operands.

   Simplifications: the integer arrays of coordinates of a SparseTensor are
   immutable values; [deepcopy] copies every array of the list separately;
   constructors do not check the number of axes of the arrays (as in Tensor.v);
   objects and buffers are never collected; what a call that raises leaves
   behind as garbage is dropped. *)
From mathcomp Require Import all_ssreflect all_algebra.
From Verif Require Import Py Nd Utils Tensor.
Set Implicit Arguments. Unset Strict Implicit. Unset Printing Implicit Defensive.
Import GRing.Theory.
Local Open Scope ring_scope.

(* A reference to an ndarray: the buffer it lives in, its shape, and the
   position in the buffer of each of its elements (in C order).  Two arrays with
   the same buffer are views of each other. *)
Record view := View { vbuf : nat; vshape : seq nat; voff : seq nat }.

(* The instances of the classes of tensor.py, with the attributes they store. *)
Inductive obj :=
  | ODense (data : view)                                            (* 144-146 *)
  | OSparse (shape : seq nat) (indices : seq (seq nat)) (entries : view) (* 185-198 *)
  | OTT (shape rank : seq nat) (cores : nat)                        (* 305-308 *)
  | OCP (shape : seq nat) (rank : nat) (cores : nat)                (* 683-686 *)
  | OTucker (shape rank : seq nat) (factors : nat) (core : view)    (* 753-758 *)
  | OSum (shape : seq nat) (tensors : nat).                         (* 618-622 *)

(* [bufs]: buffers; [alists]: Python lists of arrays; [tlists]: Python lists of
   tensors (by object number); [objs]: tensors; [caches]: the values memoized by
   the cached_property [dict] (288-291), keyed by object number. *)
Record heap (R : Type) := Heap {
  bufs : seq (seq R); alists : seq (seq view); tlists : seq (seq nat);
  objs : seq obj; caches : seq (nat * seq (nat * R)) }.

(* the k-th element of a list, if there is one *)
Definition at_ {A} (l : seq A) (k : nat) : option A := nth None (map Some l) k.

Section Heap.
Variable R : comRingType.
Notation arr := (nd R).
Notation tensor := (tensor R).
Notation heap := (heap R).
Implicit Types (h : heap) (v : view) (o : nat).

(* ------------------------------------------------------------------ *)
(* reading                                                             *)

(* the references Python programs hold are never dangling: [NameError] below
   stands for this impossible case *)
Definition deref {A} (x : option A) : res A :=
  match x with Some a => Ok a | None => Err NameError end.

(* the current contents of an array *)
Definition rd h v : option arr :=
  match at_ (bufs h) (vbuf v) with
  | Some b => if all (fun k => k < size b)%N (voff v) && (size (voff v) == prods (vshape v))
              then Some (Nd (vshape v) [seq nth 0 b k | k <- voff v]) else None
  | None => None
  end.

Fixpoint opts {A} (l : seq (option A)) : option (seq A) :=
  match l with
  | [::] => Some [::]
  | x :: l' => match x, opts l' with Some a, Some r => Some (a :: r) | _, _ => None end
  end.

Definition rds h (vs : seq view) : option (seq arr) := opts (map (rd h) vs).

(* ------------------------------------------------------------------ *)
(* allocation                                                          *)

Definition set_bufs h x := Heap x (alists h) (tlists h) (objs h) (caches h).
Definition set_alists h x := Heap (bufs h) x (tlists h) (objs h) (caches h).
Definition set_tlists h x := Heap (bufs h) (alists h) x (objs h) (caches h).
Definition set_objs h x := Heap (bufs h) (alists h) (tlists h) x (caches h).
Definition set_caches h x := Heap (bufs h) (alists h) (tlists h) (objs h) x.

(* a new array, in a buffer of its own *)
Definition new_arr h (a : arr) : heap * view :=
  (set_bufs h (rcons (bufs h) (ndata a)),
   View (size (bufs h)) (nshape a) (iota 0 (size (ndata a)))).
Fixpoint new_arrs h (l : seq arr) : heap * seq view :=
  match l with
  | [::] => (h, [::])
  | a :: l' => let: (h1, v) := new_arr h a in
               let: (h2, vs) := new_arrs h1 l' in (h2, v :: vs)
  end.
Definition new_alist h (vs : seq view) : heap * nat :=
  (set_alists h (rcons (alists h) vs), size (alists h)).
Definition new_tlist h (os : seq nat) : heap * nat :=
  (set_tlists h (rcons (tlists h) os), size (tlists h)).
Definition new_obj h (x : obj) : heap * nat :=
  (set_objs h (rcons (objs h) x), size (objs h)).

(* ------------------------------------------------------------------ *)
(* constructors: the list that is passed is stored, not copied          *)

Definition vdim v k : nat := nth 0%N (vshape v) k.

(* TensorTrain(cores), 305-308 *)
Definition new_tt h (l : nat) : res (heap * nat) :=
  do vs <- deref (at_ (alists h) l);
  Ok (new_obj h (OTT [seq vdim C 1 | C <- vs] [seq vdim C 0 | C <- behead vs] l)).

(* CPTensor(cores), 683-686 *)
Definition new_cp h (l : nat) : res (heap * nat) :=
  do vs <- deref (at_ (alists h) l);
  do C0 <- pyget vs 0;
  Ok (new_obj h (OCP [seq vdim C 0 | C <- vs] (vdim C0 1) l)).

(* TuckerTensor(factors, core), 753-758 *)
Definition new_tucker h (l : nat) (core : view) : res (heap * nat) :=
  do vs <- deref (at_ (alists h) l);
  Ok (new_obj h (OTucker [seq vdim U 1 | U <- vs] [seq vdim U 0 | U <- vs] l core)).

(* the attribute [shape] of an object *)
Definition oshape (x : obj) : seq nat :=
  match x with
  | ODense v => vshape v
  | OSparse s _ _ => s
  | OTT s _ _ => s
  | OCP s _ _ => s
  | OTucker s _ _ _ => s
  | OSum s _ => s
  end.

(* TensorSum(tensors), 618-622 *)
Definition new_sum h (l : nat) : res (heap * nat) :=
  do os <- deref (at_ (tlists h) l);
  do o0 <- pyget os 0;
  do x0 <- deref (at_ (objs h) o0);
  Ok (new_obj h (OSum (oshape x0) l)).

(* TensorSum([...]) with a list display *)
Definition sum_of h (os : seq nat) : res (heap * nat) :=
  let: (h1, l) := new_tlist h os in new_sum h1 l.

(* ------------------------------------------------------------------ *)
(* .T                                                                  *)

(* np.transpose(a, perm) returns a view *)
Definition vtrans v (perm : seq nat) : res view :=
  if perm_eq perm (iota 0 (size (vshape v))) then
    let s := [seq vdim v k | k <- perm] in
    Ok (View (vbuf v) s
         [seq nth 0%N (voff v) (ravel (vshape v)
                [seq nth 0%N (unravel s p) (index k perm) | k <- iota 0 (size (vshape v))])
         | p <- iota 0 (prods s)])
  else Err ValueError.

(* [f(x) for x in l] where f may allocate *)
Fixpoint mapH {A} (f : heap -> A -> res (heap * nat)) h (l : seq A) : res (heap * seq nat) :=
  match l with
  | [::] => Ok (h, [::])
  | x :: l' => do p <- f h x; do q <- mapH f p.1 l'; Ok (q.1, p.2 :: q.2)
  end.

(* [fuel] bounds the nesting of TensorSums, as Python's recursion limit does *)
Fixpoint op_T (fuel : nat) h o : res (heap * nat) :=
  match fuel with
  | 0%N => Err RecursionError
  | fuel'.+1 =>
    do x <- deref (at_ (objs h) o);
    match x with
    | ODense v =>                                                   (* 161-165 *)
        do v' <- vtrans v (rev (iota 0 (size (vshape v))));
        Ok (new_obj h (ODense v'))
    | OSparse s inds v =>                                           (* 200-204 *)
        Ok (new_obj h (OSparse (rev s) (rev inds) v))
    | OTT _ _ l =>                                                  (* 310-313 *)
        do vs <- deref (at_ (alists h) l);
        do vs' <- mapM (fun v => vtrans v [:: 2; 1; 0]%N) (rev vs);
        let: (h1, l') := new_alist h vs' in new_tt h1 l'
    | OCP _ _ l =>                                                  (* 691-694 *)
        do vs <- deref (at_ (alists h) l);
        let: (h1, l') := new_alist h (rev vs) in new_cp h1 l'
    | OTucker s _ l core =>                                         (* 760-765 *)
        do vs <- deref (at_ (alists h) l);
        do core' <- vtrans core (rev (iota 0 (size s)));
        let: (h1, l') := new_alist h (rev vs) in new_tucker h1 l' core'
    | OSum _ l =>                                                   (* 628-631 *)
        do os <- deref (at_ (tlists h) l);
        do p <- mapH (op_T fuel') h os;
        sum_of p.1 p.2
    end
  end.

(* ------------------------------------------------------------------ *)
(* X * c                                                               *)

Fixpoint op_mul (fuel : nat) (c : R) h o : res (heap * nat) :=
  match fuel with
  | 0%N => Err RecursionError
  | fuel'.+1 =>
    do x <- deref (at_ (objs h) o);
    match x with
    | ODense v =>                                                   (* 177-178 *)
        do a <- deref (rd h v);
        let: (h1, v') := new_arr h (nscale c a) in
        Ok (new_obj h1 (ODense v'))
    | OSparse s inds v =>                                           (* 272-273 *)
        do a <- deref (rd h v);
        let: (h1, v') := new_arr h (Nd (nshape a) [seq e * c | e <- ndata a]) in
        Ok (new_obj h1 (OSparse s inds v'))
    | OTT _ _ l =>                                                  (* 507-512 *)
        do vs <- deref (at_ (alists h) l);
        do cs <- deref (rds h vs);
        match rev cs with
        | [::] => Err IndexError
        | C :: r =>
            let: (h1, vs') := new_arrs h (rev (nscale c C :: r)) in
            let: (h2, l') := new_alist h1 vs' in new_tt h2 l'
        end
    | OCP _ _ l =>                                                  (* 740-743 *)
        do vs <- deref (at_ (alists h) l);
        match vs with
        | [::] => Err IndexError
        | v0 :: r =>
            do C <- deref (rd h v0);
            let: (h1, v') := new_arr h (nscale c C) in
            let: (h2, l') := new_alist h1 (v' :: r) in new_cp h2 l'
        end
    | OTucker _ _ l core =>                                         (* 782-784 *)
        do a <- deref (rd h core);
        let: (h1, core') := new_arr h (nscale c a) in
        new_tucker h1 l core'
    | OSum _ l =>                                                   (* 667-668 *)
        do os <- deref (at_ (tlists h) l);
        do p <- mapH (op_mul fuel' c) h os;
        sum_of p.1 p.2
    end
  end.

(* TensorSum * iterable, 664-666 *)
Definition op_mul_list (fuel : nat) (cs : seq R) h o : res (heap * nat) :=
  do x <- deref (at_ (objs h) o);
  match x with
  | OSum _ l =>
      do os <- deref (at_ (tlists h) l);
      if size os == size cs then
        do p <- mapH (fun h p => op_mul fuel p.2 h p.1) h (zip os cs);
        sum_of p.1 p.2
      else Err ValueError
  | _ => Err TypeError
  end.

(* 118-119 *)
Definition op_neg fuel h o := op_mul fuel (-1) h o.

(* ------------------------------------------------------------------ *)
(* X + Y (93-103, 639-643): a new list of the same summands             *)

Definition op_add h (o1 o2 : nat) : res (heap * nat) :=
  do x <- deref (at_ (objs h) o1);
  do y <- deref (at_ (objs h) o2);
  match y, x with
  | OSum _ l2, OSum _ l1 =>
      do xs <- deref (at_ (tlists h) l1); do ys <- deref (at_ (tlists h) l2);
      sum_of h (xs ++ ys)
  | OSum _ l2, _ =>
      do ys <- deref (at_ (tlists h) l2); sum_of h (o1 :: ys)
  | _, OSum _ l1 =>
      do xs <- deref (at_ (tlists h) l1); sum_of h (rcons xs o2)
  | _, _ => sum_of h [:: o1; o2]
  end.

(* X - Y, 115-116 *)
Definition op_sub fuel h (o1 o2 : nat) : res (heap * nat) :=
  do p <- op_neg fuel h o2; op_add p.1 o1 p.2.

(* X += Y, 645-650 (in place on sums; the default is X + Y) *)
Definition op_iadd h (o1 o2 : nat) : res (heap * nat) :=
  do x <- deref (at_ (objs h) o1);
  do y <- deref (at_ (objs h) o2);
  match x with
  | OSum _ l1 =>
      do xs <- deref (at_ (tlists h) l1);
      do ys <- match y with OSum _ l2 => deref (at_ (tlists h) l2) | _ => Ok [:: o2] end;
      Ok (set_tlists h (set_nth [::] (tlists h) l1 (xs ++ ys)), o1)
  | _ => op_add h o1 o2
  end.

(* ------------------------------------------------------------------ *)
(* to_numpy, dense, to_sparse, split, TensorTrain.add                   *)

Definition new_view h (r : res arr) : res (heap * view) :=
  do a <- r; Ok (new_arr h a).

Fixpoint op_to_numpy (fuel : nat) h o : res (heap * view) :=
  match fuel with
  | 0%N => Err RecursionError
  | fuel'.+1 =>
    do x <- deref (at_ (objs h) o);
    match x with
    | ODense v => Ok (h, v)                                         (* 171-172 *)
    | OSparse s inds v =>                                           (* 236-239 *)
        do a <- deref (rd h v); new_view h (sparse_to_numpy s inds (ndata a))
    | OTT _ _ l =>                                                  (* 315-321 *)
        do vs <- deref (at_ (alists h) l);
        do cs <- deref (rds h vs);
        do a <- tt_to_numpy cs;
        (* with one core the loop body never runs: both reshapes only drop axes
           of length one, and return views of the core *)
        if vs is [:: v] then Ok (h, View (vbuf v) (nshape a) (voff v))
        else Ok (new_arr h a)
    | OCP _ _ l =>                                                  (* 696-703 *)
        do vs <- deref (at_ (alists h) l);
        do cs <- deref (rds h vs);
        new_view h (cp_to_numpy cs)
    | OTucker _ _ l core =>                                         (* 771-780 *)
        do vs <- deref (at_ (alists h) l);
        do fs <- deref (rds h vs);
        do c <- deref (rd h core);
        do a <- tucker_to_numpy fs c;
        if vs is [::] then Ok (h, View (vbuf core) (nshape a) (voff core))
        else Ok (new_arr h a)
    | OSum s l =>                                                   (* 633-637 *)
        do os <- deref (at_ (tlists h) l);
        let: (h0, vs) := new_arr h (zeros R s) in
        do h' <- (fix go h l := match l with
            | [::] => Ok h
            | x :: l' =>
                do p <- op_to_numpy fuel' h x;
                do a <- deref (rd p.1 p.2);
                do acc <- deref (rd p.1 vs);
                do acc' <- iadd acc a;                  (* written into s itself *)
                go (set_bufs p.1 (set_nth [::] (bufs p.1) (vbuf vs) (ndata acc'))) l'
            end) h0 os;
        Ok (h', vs)
    end
  end.

(* Tensor.dense, 88-91 *)
Definition op_dense fuel h o : res (heap * nat) :=
  do p <- op_to_numpy fuel h o; Ok (new_obj p.1 (ODense p.2)).

(* the offsets are evenly spaced *)
Definition evenly (l : seq nat) : bool :=
  all (fun k => nth 0 l k + nth 0 l k.+2 == 2 * nth 0 l k.+1)%N (iota 0 (size l - 2)).

(* DenseTensor.to_sparse, 148-159.  [X.reshape(-1)] is a view of X when the
   elements of X are evenly spaced in memory, and a copy otherwise. *)
Definition op_to_sparse h o : res (heap * nat) :=
  do x <- deref (at_ (objs h) o);
  match x with
  | ODense v =>
      do a <- deref (rd h v);
      match to_sparse a with
      | Sparse s inds vals =>
          if evenly (voff v) then
            Ok (new_obj h (OSparse s inds (View (vbuf v) [:: size vals] (voff v))))
          else let: (h1, v') := new_arr h (Nd [:: size vals] vals) in
               Ok (new_obj h1 (OSparse s inds v'))
      | _ => Err TypeError
      end
  | _ => Err AttributeError
  end.

(* SparseTensor.split, 215-234: [self.entries[slice]] is a view *)
Definition op_split h o (n : nat) : res (heap * nat) :=
  do x <- deref (at_ (objs h) o);
  match x with
  | OSparse s inds v =>
      if n == 0%N then Err ZeroDivisionError else
      let nnz := size (voff v) in
      do p <- mapH (fun h i =>
           let off := split_slice nnz n i (voff v) in
           Ok (new_obj h (OSparse s [seq split_slice nnz n i row | row <- inds]
                             (View (vbuf v) [:: size off] off)))) h (iota 0 n);
      sum_of p.1 p.2
  | _ => Err AttributeError
  end.

(* TensorTrain.add, 520-540: np.concatenate copies *)
Definition op_tt_add h (o1 o2 : nat) : res (heap * nat) :=
  do x <- deref (at_ (objs h) o1);
  do y <- deref (at_ (objs h) o2);
  match x, y with
  | OTT _ _ l1, OTT _ _ l2 =>
      do vs1 <- deref (at_ (alists h) l1); do vs2 <- deref (at_ (alists h) l2);
      do cs1 <- deref (rds h vs1); do cs2 <- deref (rds h vs2);
      do cs <- tt_add cs1 cs2;
      let: (h1, vs) := new_arrs h cs in
      let: (h2, l) := new_alist h1 vs in new_tt h2 l
  | _, _ => Err AttributeError
  end.

(* TensorTrain.orthogonalize (559-572) and TensorTrain.round (446-489) without
   orthogonalized=True: [sweep] stands for the values of the new cores, computed from
   those of the old ones ([tt_orthogonalize], [tt_round] of TensorNum.v).  Every new core
   is a new array (the result of einsum or a reshape of a factor made by LAPACK), except
   that with one core no einsum is made and [new_cores.append(C)] (570, 487) stores the
   core of X itself.  With orthogonalized=True round differs only in [sweep]. *)
Definition op_sweep (sweep : seq arr -> res (seq arr)) h o : res (heap * nat) :=
  do x <- deref (at_ (objs h) o);
  match x with
  | OTT _ _ l =>
      do vs <- deref (at_ (alists h) l); do cs <- deref (rds h vs);
      do cs' <- sweep cs;
      let: (h1, vs') := if vs is [:: v] then (h, [:: v]) else new_arrs h cs' in
      let: (h2, l') := new_alist h1 vs' in new_tt h2 l'
  | _ => Err AttributeError
  end.

(* ------------------------------------------------------------------ *)
(* gather                                                              *)

Fixpoint cache_get (l : seq (nat * seq (nat * R))) (o : nat) : option (seq (nat * R)) :=
  match l with
  | [::] => None
  | (o', d) :: l' => if o' == o then Some d else cache_get l' o
  end.

(* 275-291 for sparse tensors (the dictionary is computed at the first call and
   then kept), 414-440 and 726-732 for trains and CP tensors *)
Definition op_gather h o (idx : seq (seq nat)) : res (heap * seq R) :=
  do x <- deref (at_ (objs h) o);
  match x with
  | OSparse s inds v =>
      do keys <- ravel_multi s idx (size (head [::] idx));
      do p <- match cache_get (caches h) o with
              | Some d => Ok (h, d)
              | None => do a <- deref (rd h v);
                        do d <- sparse_dict s inds (ndata a);
                        Ok (set_caches h ((o, d) :: caches h), d)
              end;
      Ok (p.1, [seq dict_get p.2 k | k <- keys])
  | OTT _ _ l =>
      do vs <- deref (at_ (alists h) l); do cs <- deref (rds h vs);
      do r <- tt_gather cs idx; Ok (h, r)
  | OCP _ _ l =>
      do vs <- deref (at_ (alists h) l); do cs <- deref (rds h vs);
      do r <- cp_gather cs idx; Ok (h, r)
  | _ => Err AttributeError
  end.

(* ------------------------------------------------------------------ *)
(* in-place modification by the user                                   *)

(* a.flat[k] = x on an array the user holds *)
Definition op_write h v (k : nat) (x : R) : res heap :=
  do off <- pyget (voff v) k;
  do b <- deref (at_ (bufs h) (vbuf v));
  Ok (set_bufs h (set_nth [::] (bufs h) (vbuf v) (set_nth 0 b off x))).

(* X[k] = data on trains (411-412) and CP tensors (723-724): the list is
   updated, the attributes [shape] and [rank] are not *)
Definition op_setitem h o (k : nat) v : res heap :=
  do x <- deref (at_ (objs h) o);
  match x with
  | OTT _ _ l | OCP _ _ l =>
      do vs <- deref (at_ (alists h) l);
      do vs' <- pyset vs k v;
      Ok (set_alists h (set_nth [::] (alists h) l vs'))
  | _ => Err TypeError
  end.

(* ------------------------------------------------------------------ *)
(* one statement of a user program                                     *)

Inductive call :=
  | CArray (a : arr)                      (* np.array(...) *)
  | CArrays (vs : seq view)               (* l = [v1, v2, ...] *)
  | CTensors (os : seq nat)               (* l = [X1, X2, ...] *)
  | CNewDense v                           (* DenseTensor(v) *)
  | CNewSparse (s : seq nat) (inds : seq (seq nat)) v
  | CNewTT (l : nat) | CNewCP (l : nat) | CNewTucker (l : nat) (core : view)
  | CNewSum (l : nat)
  | CT o | CMul o (c : R) | CMulList o (cs : seq R) | CNeg o
  | CAdd (o1 o2 : nat) | CSub (o1 o2 : nat)
  | CToNumpy o | CDense o | CToSparse o | CSplit o (n : nat)
  | CTTAdd (o1 o2 : nat)
  | CSweep (sweep : seq arr -> res (seq arr)) o     (* X.orthogonalize(), X.round(...) *)
  | CGather o (idx : seq (seq nat))
  | CIadd (o1 o2 : nat) | CWrite v (k : nat) (x : R) | CSetItem o (k : nat) v.

(* what the call returns *)
Inductive answer := AObj o | AView v | AList (l : nat) | AVals (xs : seq R) | ANone.

Definition ret {A} (f : A -> answer) (r : res (heap * A)) : res (heap * answer) :=
  do p <- r; Ok (p.1, f p.2).

Definition exec (fuel : nat) h (c : call) : res (heap * answer) :=
  match c with
  | CArray a => ret AView (Ok (new_arr h a))
  | CArrays vs => ret AList (Ok (new_alist h vs))
  | CTensors os => ret AList (Ok (new_tlist h os))
  | CNewDense v => ret AObj (Ok (new_obj h (ODense v)))             (* 144-146 *)
  | CNewSparse s inds v => ret AObj (Ok (new_obj h (OSparse s inds v)))
  | CNewTT l => ret AObj (new_tt h l)
  | CNewCP l => ret AObj (new_cp h l)
  | CNewTucker l core => ret AObj (new_tucker h l core)
  | CNewSum l => ret AObj (new_sum h l)
  | CT o => ret AObj (op_T fuel h o)
  | CMul o c => ret AObj (op_mul fuel c h o)
  | CMulList o cs => ret AObj (op_mul_list fuel cs h o)
  | CNeg o => ret AObj (op_neg fuel h o)
  | CAdd o1 o2 => ret AObj (op_add h o1 o2)
  | CSub o1 o2 => ret AObj (op_sub fuel h o1 o2)
  | CToNumpy o => ret AView (op_to_numpy fuel h o)
  | CDense o => ret AObj (op_dense fuel h o)
  | CToSparse o => ret AObj (op_to_sparse h o)
  | CSplit o n => ret AObj (op_split h o n)
  | CTTAdd o1 o2 => ret AObj (op_tt_add h o1 o2)
  | CSweep f o => ret AObj (op_sweep f h o)
  | CGather o idx => ret AVals (op_gather h o idx)
  | CIadd o1 o2 => ret AObj (op_iadd h o1 o2)
  | CWrite v k x => do h' <- op_write h v k x; Ok (h', ANone)
  | CSetItem o k v => do h' <- op_setitem h o k v; Ok (h', ANone)
  end.

(* a program: an exception is caught and the program goes on *)
Fixpoint run (fuel : nat) h (cs : seq call) : heap :=
  match cs with
  | [::] => h
  | c :: cs' => run fuel (match exec fuel h c with Ok p => p.1 | Err _ => h end) cs'
  end.

End Heap.
