(* What the objects of Heap.v denote, and which storage they depend on.
   This is the specification side: nothing here models code. *)
From mathcomp Require Import all_ssreflect all_algebra.
From Verif Require Import Py Nd Utils Tensor Heap.
Set Implicit Arguments. Unset Strict Implicit. Unset Printing Implicit Defensive.
Import GRing.Theory.
Local Open Scope ring_scope.

Section HeapSpec.
Variable R : comRingType.
Notation arr := (nd R).
Notation tensor := (tensor R).
Notation heap := (heap R).
Implicit Types (h : heap) (v : view) (o : nat).

(* The value (in the sense of Tensor.v) of object [o], looking through at most
   [n] levels of nesting of sums.  None when the object does not exist, when it
   is nested deeper than [n], or when its attributes [shape] / [rank] no longer
   agree with its arrays. *)
Fixpoint val (n : nat) h o : option tensor :=
  if n is n'.+1 then
    match at_ (objs h) o with
    | Some (ODense v) => omap (@Dense R) (rd h v)
    | Some (OSparse s inds v) =>
        match rd h v with
        | Some a => if nshape a == [:: size (ndata a)] then Some (Sparse s inds (ndata a)) else None
        | None => None
        end
    | Some (OTT s r l) =>
        match at_ (alists h) l with
        | Some vs => match rds h vs with
            | Some cs => if (s == [seq dim C 1 | C <- cs]) && (r == tt_rank cs)
                         then Some (TT cs) else None
            | None => None end
        | None => None
        end
    | Some (OCP s r l) =>
        match at_ (alists h) l with
        | Some vs => match rds h vs with
            | Some (C0 :: cs) => if (s == [seq dim C 0 | C <- C0 :: cs]) && (r == dim C0 1)
                         then Some (CP (C0 :: cs)) else None
            | _ => None end
        | None => None
        end
    | Some (OTucker s r l core) =>
        match at_ (alists h) l with
        | Some vs => match rds h vs, rd h core with
            | Some fs, Some c => if (s == [seq dim U 1 | U <- fs]) && (r == tucker_rank fs)
                         then Some (Tucker fs c) else None
            | _, _ => None end
        | None => None
        end
    | Some (OSum s l) =>
        match at_ (tlists h) l with
        | Some os => omap (TSum s) (opts (map (val n' h) os))
        | None => None
        end
    | None => None
    end
  else None.

(* object [o] represents the tensor [X] *)
Definition denotes h o (X : tensor) : Prop := exists n, val n h o = Some X.

(* The storage an object depends on: the memory cells of its arrays, the lists
   of arrays and the lists of tensors it goes through. *)
Definition vcells v : seq (nat * nat) := [seq (vbuf v, k) | k <- voff v].

Fixpoint cells (n : nat) h o : seq (nat * nat) :=
  if n is n'.+1 then
    match at_ (objs h) o with
    | Some (ODense v) | Some (OSparse _ _ v) => vcells v
    | Some (OTT _ _ l) | Some (OCP _ _ l) =>
        if at_ (alists h) l is Some vs then flatten (map vcells vs) else [::]
    | Some (OTucker _ _ l core) =>
        vcells core ++ (if at_ (alists h) l is Some vs then flatten (map vcells vs) else [::])
    | Some (OSum _ l) =>
        if at_ (tlists h) l is Some os then flatten (map (cells n' h) os) else [::]
    | None => [::]
    end
  else [::].

Fixpoint array_lists (n : nat) h o : seq nat :=
  if n is n'.+1 then
    match at_ (objs h) o with
    | Some (ODense _) | Some (OSparse _ _ _) => [::]
    | Some (OTT _ _ l) | Some (OCP _ _ l) | Some (OTucker _ _ l _) => [:: l]
    | Some (OSum _ l) =>
        if at_ (tlists h) l is Some os then flatten (map (array_lists n' h) os) else [::]
    | None => [::]
    end
  else [::].

Fixpoint tensor_lists (n : nat) h o : seq nat :=
  if n is n'.+1 then
    match at_ (objs h) o with
    | Some (OSum _ l) =>
        l :: (if at_ (tlists h) l is Some os then flatten (map (tensor_lists n' h) os) else [::])
    | _ => [::]
    end
  else [::].

(* the tensors an operand contributes to a sum: X.tensors if X is a TensorSum, X itself otherwise *)
Definition summands h o : seq nat :=
  match at_ (objs h) o with
  | Some (OSum _ l) => odflt [::] (at_ (tlists h) l)
  | _ => [:: o]
  end.

(* The call returned a new reference to an object representing the result [q] of
   the value-level function, or raised the same exception. *)
Definition yields (r : res (heap * answer R)) (q : res tensor) : Prop :=
  match q with
  | Ok Y => exists h' o', r = Ok (h', AObj R o') /\ denotes h' o' Y
  | Err e => r = Err e
  end.

(* everything except +=, assignment to array elements and X[k] = data *)
Definition not_in_place (c : call R) : bool :=
  match c with CIadd _ _ | CWrite _ _ _ | CSetItem _ _ _ => false | _ => true end.

(* assignment to an element of an array *)
Definition is_write (c : call R) : bool := if c is CWrite _ _ _ then true else false.

(* the dictionaries remembered by sparse tensors agree with their entries *)
Definition caches_fresh h : Prop :=
  forall o d, cache_get (caches h) o = Some d ->
    exists s inds v a, [/\ at_ (objs h) o = Some (OSparse s inds v),
                           rd h v = Some a & sparse_dict s inds (ndata a) = Ok d].

(* formats whose X * c copies everything *)
Fixpoint copied (X : tensor) : bool :=
  match X with
  | Dense _ | Sparse _ _ _ | TT _ => true
  | CP _ | Tucker _ _ => false
  | TSum _ Xs => all copied Xs
  end.


(* to_numpy of the formats that compute a new array *)
Definition np_fresh (X : tensor) : bool :=
  match X with
  | Dense _ => false | TT cs => (1 < size cs)%N | Tucker fs _ => (0 < size fs)%N | _ => true
  end.

End HeapSpec.
