(* Specification of a run of tt_sum_gmres: valid arguments, and the parts of its result as an
   Arnoldi process (ArnSpec.v). *)
From Coq Require Import String Ascii NArith.
From mathcomp Require Import all_ssreflect all_algebra.
From Verif Require Import Py Nd Utils Tensor Mpo Gmres Spec LinSpec RecSpec MpoSpec GmresSpec ArnSpec.
Set Implicit Arguments. Unset Strict Implicit. Unset Printing Implicit Defensive.
Import GRing.Theory Num.Theory.
Local Open Scope ring_scope.

Section GmRunSpec.
Variable R : rcfType.
Notation arr := (nd R).
Notation tensor := (tensor R).
Notation allpos := (all (fun n => 0 < n)%N).

(* a train of shape s with positive mode sizes and ranks *)
Definition good_train (s : seq nat) (cs : seq arr) : Prop :=
  [/\ wf_tt cs, tshape (TT cs) = s, allpos s & allpos (tt_rank cs)].
(* a sum of linear maps from s to s; the ranks of the MPOs are positive *)
Definition good_maps (qr : arr -> res (arr * arr)) (fs : seq (ttmap R)) (s : seq nat) : Prop :=
  [/\ ~~ nilp fs, forall f, List.In f fs -> map_ok qr f s s &
      forall ms, List.In (MapMpo ms) fs -> allpos (mpo_rank ms)].
Definition good_pre (qr : arr -> res (arr * arr)) (pre : option (precond R)) (s : seq nat) : Prop :=
  if pre is Some p then map_ok qr (MapPre p) s s else True.
(* a rounding method that returns a train; "orth_sketch" needs at most 102 modes *)
Definition good_method (m : rounding) (s : seq nat) : Prop :=
  match m with RExact | RPairwise | RSketch => True | ROrthSketch => (size s <= 102)%N | _ => False end.

(* the arguments used when they are not given: x0 = 0, final_round_rank = max_rank,
   rounding_method_final = rounding_method *)
Definition x0_of (x0 : option (seq arr)) : seq nat -> R := if x0 is Some cs then den (TT cs) else fun=> 0.
Definition final_method (m mf : rounding) : rounding := if mf is RNone then m else mf.

Record gmres_valid (qr : arr -> res (arr * arr)) (fs : seq (ttmap R)) (s : seq nat) (b : seq arr)
   (max_rank : ttrank) (pre : option (precond R)) (final_rank : option ttrank) (x0 : option (seq arr))
   (m mf : rounding) (rkf : seq nat) : Prop := GmresValid {
  gv_modes : (1 < size s)%N;
  gv_maps : good_maps qr fs s;
  gv_pre : good_pre qr pre s;
  gv_b : good_train s b;
  gv_x0 : if x0 is Some cs then good_train s cs else True;
  gv_rank : exists2 rk, process_tt_rank max_rank s false = Ok rk & allpos rk;
  gv_rankf : process_tt_rank (odflt max_rank final_rank) s false = Ok rkf /\ allpos rkf;
  gv_method : good_method m s;
  gv_methodf : good_method (final_method m mf) s }.

(* the parts of the result *)
Definition run_iters (o : gmres_out R) : nat := size (g_delta o).
Definition run_inp (o : gmres_out R) (l : nat) : seq nat -> R := den (nth (TT [::], TT [::]) (g_trace o) l).1.
Definition run_out (o : gmres_out R) (l : nat) : seq nat -> R := den (nth (TT [::], TT [::]) (g_trace o) l).2.
Definition run_H (o : gmres_out R) (p q : nat) : R := get (g_H o) [:: p; q].
Definition run_y (o : gmres_out R) (q : nat) : R := get (g_y o) [:: q].
(* the basis; the vector after the last one is not returned (0 if it is undefined) *)
Definition run_nu (o : gmres_out R) (l : nat) : seq nat -> R :=
  let k := run_iters o in
  if (l < k)%N then den (nth (TT [::]) (g_nu o) l) else fun i => run_out o (2 * k) i / run_H o k k.-1.
End GmRunSpec.
