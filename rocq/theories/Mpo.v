(* Model of class MPO, tt_sketch/tt_gmres.py:41-134 (definitions only). *)
From Coq Require Import String Ascii.
From mathcomp Require Import all_ssreflect all_algebra.
From Verif Require Import Py Nd Utils Tensor.
Set Implicit Arguments. Unset Strict Implicit. Unset Printing Implicit Defensive.
Import GRing.Theory.
Local Open Scope ring_scope.

Section Mpo.
Variable R : comRingType.
Notation arr := (nd R).
(* An MPO object is its list of cores of shape (rank[mu-1], in[mu], out[mu], rank[mu]) *)

(* tt_gmres.py:53-60 *)
Definition mpo_in (ms : seq arr) : seq nat := [seq dim M 1 | M <- ms].
Definition mpo_out (ms : seq arr) : seq nat := [seq dim M 2 | M <- ms].
Definition mpo_rank (ms : seq arr) : seq nat := [seq dim M 0 | M <- behead ms].
Definition mpo_shape (ms : seq arr) : seq nat := [seq (p.1 * p.2)%N | p <- zip (mpo_in ms) (mpo_out ms)].

(* MPO.size, tt_gmres.py:62-64 *)
Definition mpo_size (ms : seq arr) : nat := sumn [seq prods (nshape M) | M <- ms].

(* MPO.T, tt_gmres.py:66-71 *)
Definition mpo_T (ms : seq arr) : res (seq arr) := mapM (fun M => transpose M [:: 0; 2; 1; 3]%N) ms.

(* MPO.to_tt, tt_gmres.py:73-78 *)
Definition mpo_to_tt (ms : seq arr) : res (seq arr) :=
  mapM (fun M => reshape M [:: dim M 0; (dim M 1 * dim M 2)%N; dim M 3]) ms.

(* MPO.to_numpy, tt_gmres.py:80-89; "..." is written E *)
Definition mpo_to_numpy (ms : seq arr) : res arr :=
  match ms with
  | [::] => Err IndexError
  | M0 :: ms' =>
      do d0 <- reshape M0 (behead (nshape M0));
      do d <- foldM (fun d M => einsum_ell "Ei,ijkl->Ejkl" d M) d0 ms';
      reshape d (take (ndim d).-1 (nshape d))
  end.

(* MPO.__call__, tt_gmres.py:91-101; zip stops at the shorter list *)
Definition mpo_call (ms cs : seq arr) : res (seq arr) :=
  mapM (fun p =>
      do MC <- einsum "ijkl,ajb->iaklb" [:: p.1; p.2];
      reshape MC [:: (dim MC 0 * dim MC 1)%N; dim MC 2; (dim MC 3 * dim MC 4)%N])
    (zip ms cs).

(* MPO.eye, tt_gmres.py:122-129 *)
Definition mpo_eye (shape : seq nat) : res (seq arr) :=
  mapM (fun s => let C := eye R s in reshape C [:: 1%N; dim C 0; dim C 1; 1%N]) shape.

(* MPO.__mul__, tt_gmres.py:131-134.  [new_cores = self.cores] is the list object of self, and
   the assignment to new_cores[0] changes it.  Returned: the cores of [self] after the call, and
   the cores of the result. *)
Definition mpo_mul (ms : seq arr) (c : R) : res (seq arr * seq arr) :=
  match ms with
  | [::] => Err IndexError
  | M :: ms' => let new_cores := nscale c M :: ms' in Ok (new_cores, new_cores)
  end.
End Mpo.
