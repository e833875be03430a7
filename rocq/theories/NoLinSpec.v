(* The vocabulary of property C53. *)
From mathcomp Require Import all_ssreflect.
From Verif Require Import Py Nd Mpo Gmres.

(* [r] is not the exception LinAlgError *)
Definition nolin {A : Type} (r : res A) : Prop := r <> Err LinAlgError.

(* no linear map written by a user raises LinAlgError by itself *)
Definition quiet_map {R : Type} (f : ttmap R) : Prop := if f is MapUser _ _ call then forall cs, nolin (call cs) else True.
Definition quiet {R : Type} (A : mapsum R) : Prop := forall f, List.In f (m_maps A) -> quiet_map f.
