(* Specification for property C68: the tensor with all stored numbers replaced by their absolute
   values, and the number of roundings in a row that an entry of X.to_numpy() goes through. *)
From Coq Require Import String Ascii.
From mathcomp Require Import all_ssreflect all_algebra.
From Verif Require Import Py Nd Tensor.
Set Implicit Arguments. Unset Strict Implicit. Unset Printing Implicit Defensive.
Import GRing.Theory Num.Theory.
Local Open Scope ring_scope.

Section FlSpec.
Variable R : realDomainType.
Notation arr := (nd R).

Definition nabs (a : arr) : arr := Nd (nshape a) [seq `|x| | x <- ndata a].

Fixpoint tabs (X : tensor R) : tensor R :=
  match X with
  | Dense a => Dense (nabs a)
  | Sparse s inds vals => Sparse s inds [seq `|x| | x <- vals]
  | TT cs => TT (map nabs cs)
  | CP cs => CP (map nabs cs)
  | Tucker fs core => Tucker (map nabs fs) (nabs core)
  | TSum s Xs => TSum s (map tabs Xs)
  end.

(* a train: the sum of its ranks; a CP tensor of order d and rank r: d-1 products, r-1 additions;
   a Tucker tensor: the sum of the sides of its core; a sum: one addition per summand *)
Fixpoint roundings (X : tensor R) : nat :=
  match X with
  | Dense _ | Sparse _ _ _ => 0
  | TT cs => sumn [seq dim C 0 | C <- behead cs]
  | CP cs => (size cs).-1 + (dim (head (Nd [::] [::]) cs) 1).-1
  | Tucker fs _ => sumn [seq dim U 0 | U <- fs]
  | TSum _ Xs => foldr maxn 0 (map roundings Xs) + size Xs
  end%N.

(* the relative error that n roundings can build up *)
Definition growth (u : R) (n : nat) : R := (1 + u) ^+ n - 1.

(* The numbers of a' are those of a, each off by a relative error of at most (1+u)^k - 1 *)
Definition near (u : R) (k : nat) (a a' : arr) : Prop :=
  [/\ nshape a' = nshape a, size (ndata a') = size (ndata a) &
   forall j, `|nth 0 (ndata a') j - nth 0 (ndata a) j| <= growth u k * `|nth 0 (ndata a) j|].

(* the j-th array of cs' is near that of cs with the j-th number of ks *)
Fixpoint nears (u : R) (ks : seq nat) (cs cs' : seq arr) : Prop :=
  match ks, cs, cs' with
  | [::], [::], [::] => True
  | k :: ks, C :: cs, C' :: cs' => near u k C C' /\ nears u ks cs cs'
  | _, _, _ => False
  end.

(* X' is X with its stored numbers perturbed; a product of stored numbers, one of each of the arrays
   that are multiplied to give an entry of X, is off by at most (1+u)^n - 1.  For instance n = d k for
   a train of order d with a relative error of at most (1+u)^k - 1 of every number. *)
Fixpoint perturbed (u : R) (n : nat) (X X' : tensor R) : Prop :=
  match X, X' with
  | Dense a, Dense a' => near u n a a'
  | Sparse s inds vals, Sparse s' inds' vals' =>
      [/\ s' = s, inds' = inds & near u n (Nd [:: size vals] vals) (Nd [:: size vals'] vals')]
  | TT cs, TT cs' => exists2 ks, (sumn ks <= n)%N & nears u ks cs cs'
  | CP cs, CP cs' => exists2 ks, (sumn ks <= n)%N & nears u ks cs cs'
  | Tucker fs core, Tucker fs' core' =>
      exists k ks, [/\ (k + sumn ks <= n)%N, nears u ks fs fs' & near u k core core']
  | TSum s Xs, TSum s' Xs' => s' = s /\      (fix go l l' := match l, l' with
        | [::], [::] => True
        | x :: l, x' :: l' => perturbed u n x x' /\ go l l'
        | _, _ => False
        end) Xs Xs'
  | _, _ => False
  end.
End FlSpec.
