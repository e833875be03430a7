(* Property C53: the package never raises LinAlgError itself.  A LinAlgError that reaches the user
   was raised by a linear algebra routine (np.linalg.qr, np.linalg.svd, scipy's
   solve_triangular, lstsq, qr); if these never raise it, the numerical methods succeed on all
   valid inputs. *)
From Coq Require Import String Ascii NArith.
From mathcomp Require Import all_ssreflect all_algebra.
From Verif Require Import Py Nd Utils Tensor Hash TensorNum Sketch Mpo Gmres Spec LinSpec RoundSpec SkSpec RecSpec GmresSpec NoLinSpec.
From Verif Require Import NoLin SweepThy TrimThy RoundThy RoundThy2 RoundSumThy DotThy LinExist Ex Prop_Num Prop_TtSvd Prop_Recovery Prop_Orth Prop_RoundSum Prop_LinEx.
Set Implicit Arguments. Unset Strict Implicit. Unset Printing Implicit Defensive.
Import GRing.Theory Num.Theory.
Local Open Scope ring_scope.

Lemma or_total A (r : res A) (P : A -> Prop) : nolin r -> or_linalg r P -> exists2 a, r = Ok a & P a.
Proof. by case: r => [a|e] h //= p; [exists a|case: h; rewrite p]. Qed.

Section C53.
Variable R : rcfType.
Notation arr := (nd R).
Variables (qr : arr -> res (arr * arr)) (svd svd_red : arr -> res (arr * arr * arr)).
Variables (solve_tri : arr -> arr -> res arr) (lstsq : arr -> arr -> res arr) (qr_econ : arr -> res (arr * arr)).
Variable np_lstsq : arr -> arr -> res (arr * seq R).
Variables (to_normal : N -> R) (tt_random : seq nat -> seq nat -> N -> seq arr) (stream : N -> nat -> R).
Variables (offset : N -> nat -> N) (right_seed_of : N -> nat -> N).
Hypotheses (qrN : forall A, nolin (qr A)) (svdN : forall A, nolin (svd A)) (svd_redN : forall A, nolin (svd_red A)).
Hypotheses (solveN : forall T B, nolin (solve_tri T B)) (lstsqN : forall A B, nolin (lstsq A B)).
Hypotheses (qr_econN : forall A, nolin (qr_econ A)) (np_lstsqN : forall A b, nolin (np_lstsq A b)).

(* tensors: for all arguments, valid or not *)
Theorem C53_tensor_origin (X Y : tensor R) cs n c e m o rank relative rmse fast :
  [/\ nolin (to_numpy X), nolin (tT X), nolin (tmul X c), nolin (tadd X Y) & nolin (tsub X Y)] /\
  [/\ nolin (tnorm qr n X), nolin (terror qr n X Y relative rmse fast), nolin (tt_orthogonalize qr cs),
      nolin (tt_round qr svd cs e m o) & nolin (tt_svdvals qr svd cs) /\ nolin (tt_svd svd_red X rank)].
Proof. by split; split; try split; auto with nl nocore. Qed.

(* sketches and their use *)
Theorem C53_sketch_origin X l r seed lt rt ld rd ent b (S0 : sketched R) Y :
  [/\ nolin (stream_sketch to_normal tt_random stream offset right_seed_of lstsq qr_econ X l r seed lt rt ld rd ent),
      nolin (orthogonal_sketch to_normal tt_random stream offset right_seed_of lstsq qr_econ X l r seed lt rt ld rd ent),
      nolin (hmt_sketch to_normal tt_random stream offset lstsq qr_econ X r seed rt rd b ent),
      nolin (stt_to_tt lstsq S0) &
      nolin (stt_add to_normal tt_random stream offset right_seed_of lstsq qr_econ S0 Y) /\
      nolin (stt_increase_rank to_normal tt_random stream offset lstsq qr_econ S0 Y l r)].
Proof. by split; try split; auto with nl nocore. Qed.

(* linear maps, rounding of sums, GMRES; [quiet A]: the linear maps of the user in A, if any, do not
   raise LinAlgError either *)
Theorem C53_gmres_origin (A : mapsum R) X b max_rank pre final_rank x0 tol maxiter sym m mf ent : quiet A ->
  [/\ nolin (mapsum_call solve_tri A X),
      nolin (round_tt_sum qr svd to_normal tt_random stream offset right_seed_of lstsq qr_econ (ent 0%N) X max_rank tol m (2, 1)%N) &
      forall t, nolin (tt_sum_gmres qr svd solve_tri to_normal tt_random stream offset right_seed_of lstsq qr_econ
             np_lstsq ent A b max_rank pre final_rank x0 t maxiter sym m mf)].
Proof. by split=> *; auto with nl nocore. Qed.

(* hence success on all valid inputs *)
Theorem C53_norm_total (X : tensor R) n : qr_contract qr -> wf X -> (0 < size (tshape X))%N -> (depth X + depth X + 2 < n)%N ->
  (if X is TT cs then pos_tt cs else true) ->
  exists a, to_numpy X = Ok a /\ tnorm qr n X = Ok (Num.sqrt (sum_idx (nshape a) (fun i => get a i ^+ 2))).
Proof.
move=> qrP w s d p; have [a ea h] := C10_norm qrP w s d p; exists a; split=> //.
by have [|v -> ->] := or_total _ h; first by auto with nl nocore.
Qed.

Theorem C53_orthogonalize_total cs : qr_contract qr -> wf_tt cs -> pos_tt cs ->
  exists out, [/\ tt_orthogonalize qr cs = Ok out, wf_tt out, to_numpy (TT out) = to_numpy (TT cs),
    all_but_last (@left_orth R) out & below (tt_rank out) (tt_rank cs)].
Proof.
move=> qrP w p; have [|out e [? _ ? ? ?]] := or_total _ (C12_orthogonalize qrP w p); first by auto with nl nocore.
by exists out.
Qed.

Theorem C53_round_total cs eps m o rk : qr_contract qr -> svd_contract svd -> round_args cs m o ->
  (if m is Some m' then process_tt_rank m' (tshape (TT cs)) true = Ok rk else rk = tt_rank cs) ->
  exists out, [/\ tt_round qr svd cs eps m o = Ok out, wf_tt out, tshape (TT out) = tshape (TT cs) &
    forall k, (k < (size cs).-1)%N -> (1 <= nth 0%N (tt_rank out) k <= maxn 1 (nth 0%N rk k))%N].
Proof.
move=> qrP svdP a h; have [|out e [? ? _ ?]] := or_total _ (C13_round eps qrP svdP a h); first by auto with nl nocore.
by exists out.
Qed.

Theorem C53_tt_svd_total (X : tensor R) rank rk : svd_red_contract svd_red -> wf X -> (1 < size (tshape X))%N ->
  all (fun n => 0 < n)%N (tshape X) -> process_tt_rank (svd_rank X rank) (tshape X) true = Ok rk ->
  exists out, [/\ tt_svd svd_red X rank = Ok out, wf (TT out), tshape (TT out) = tshape X &
    forall k, (k < (size (tshape X)).-1)%N -> (1 <= nth 0 (tt_rank out) k <= maxn 1 (nth 0 rk k))%N].
Proof.
move=> svdP w s1 hs h; have [|out e [? ? _ ?]] := or_total _ (C20_shape_and_ranks svdP w s1 hs h); first by auto with nl nocore.
by exists out.
Qed.

(* hmt_sketch with the default DRM *)
Theorem C53_hmt_total X a rank rk seed ent : qr_contract qr_econ -> tt_random_ok tt_random ->
  wf X -> to_numpy X = Ok a -> right_ok X -> (1 < size (tshape X) <= 102)%N -> all (fun n => 0 < n)%N (tshape X) ->
  process_tt_rank rank (tshape X) false = Ok rk -> all (fun n => 0 < n)%N rk ->
  exists2 cs, hmt_sketch to_normal tt_random stream offset lstsq qr_econ X rank seed None None false ent = Ok cs &
    orth_result (tshape X) (trim_ranks (tshape X) rk) a cs.
Proof.
move=> qP rP w ea rX d hs hp hk; have [E _ [h _]] := @C30_hmt_sketch_default R to_normal tt_random stream offset lstsq qr_econ qP X a rank rk seed ent rP w ea rX d hs hp hk.
by apply: or_total h; auto with nl nocore.
Qed.
End C53.

(* routines that meet all contracts and never raise LinAlgError exist *)
Lemma nl_qr0 (R : rcfType) A : nolin (@qr0 R A).
Proof. by rewrite /qr0; case: (nshape A) => [|m [|n []]] *; auto with nl nocore; nl. Qed.
Lemma nl_svd0 (R : rcfType) A : nolin (@svd0 R A).
Proof. by rewrite /svd0; nl. Qed.
Lemma nl_svd_red0 (R : rcfType) A : nolin (@svd_red0 R A).
Proof. by rewrite /svd_red0; nl. Qed.
Lemma nl_lstsq0 (R : rcfType) A B : nolin (@lstsq0 R A B).
Proof. by rewrite /lstsq0; nl. Qed.
Lemma nl_np_lstsq0 (R : rcfType) A b : nolin (@np_lstsq0 R A b).
Proof. by rewrite /np_lstsq0; nl. Qed.
#[export] Hint Resolve nl_qr0 nl_svd0 nl_svd_red0 nl_lstsq0 nl_np_lstsq0 : nl.

(* the 2 x 3 x 2 train of ranks (2, 3) of Prop_LinEx.v: norm, round and TT-SVD succeed *)
Example C53_nonvacuous (R : rcfType) :
  (exists v, tnorm (@qr0 R) 3 (TT (ex_cs R)) = Ok v) /\
  (exists out, tt_round (@qr0 R) (@svd0 R) (ex_cs R) None (Some (RTuple [:: 1; 2]%N)) false = Ok out) /\
  (exists out, tt_svd (@svd_red0 R) (TT (ex_cs R)) None = Ok out).
Proof.
split; [|split].
- have [a [_ ->]] : exists a, to_numpy (TT (ex_cs R)) = Ok a /\ tnorm (@qr0 R) 3 (TT (ex_cs R)) =
    Ok (Num.sqrt (sum_idx (nshape a) (fun i => get a i ^+ 2))).
    by apply: C53_norm_total => //; [auto with nl nocore|case: (@qr0P R)].
  by eexists.
- have [q s a h] := @C13_C14_nonvacuous R.
  by have [||out [-> _ _ _]] := C53_round_total _ _ None q s a h; auto with nl nocore; exists out.
- have h : process_tt_rank (svd_rank (TT (ex_cs R)) None) (tshape (TT (ex_cs R))) true = Ok [:: 2; 2]%N by [].
  have hs : all (fun n => 0 < n)%N (tshape (TT (ex_cs R))) by [].
  by have [|out [-> _ _ _]] := C53_tt_svd_total _ (@svd_red0P R) (isT : wf (TT (ex_cs R))) isT hs h; auto with nl nocore; exists out.
Qed.
Print Assumptions C53_tensor_origin.
Print Assumptions C53_sketch_origin.
Print Assumptions C53_gmres_origin.
Print Assumptions C53_norm_total.
Print Assumptions C53_orthogonalize_total.
Print Assumptions C53_round_total.
Print Assumptions C53_tt_svd_total.
Print Assumptions C53_hmt_total.
