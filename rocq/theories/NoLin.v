(* LinAlgError is never raised by the library itself, only passed on from a LAPACK routine. *)
From Coq Require Import String Ascii NArith.
From mathcomp Require Import all_ssreflect all_algebra.
From Verif Require Import Py Nd Utils Tensor Hash TensorNum Sketch Mpo Gmres NoLinSpec.
Set Implicit Arguments. Unset Strict Implicit. Unset Printing Implicit Defensive.
Import GRing.Theory Num.Theory.
Local Open Scope ring_scope.

Lemma nl_ok A (a : A) : nolin (Ok a). Proof. by []. Qed.
Lemma nl_err A e : e <> LinAlgError -> nolin (Err e : res A). Proof. by move=> h [/h]. Qed.
Lemma nl_bind A B (x : res A) (f : A -> res B) : nolin x -> (forall a, nolin (f a)) -> nolin (bind x f).
Proof. by case: x => [a|e] //= h _ [e']; apply: h; rewrite e'. Qed.
Lemma nl_mapM A B (f : A -> res B) l : (forall a, nolin (f a)) -> nolin (mapM f l).
Proof. by move=> h; elim: l => //= a l IH; apply: nl_bind => // b; apply: nl_bind. Qed.
Lemma nl_foldM A S (f : S -> A -> res S) l s : (forall s a, nolin (f s a)) -> nolin (foldM f s l).
Proof. by move=> h; elim: l s => //= a l IH s; apply: nl_bind. Qed.

Create HintDb nl discriminated.
#[export] Hint Resolve nl_ok : nl.
Ltac nl1 := match goal with
| |- nolin (Ok _) => apply: nl_ok
| |- nolin (Err _) => by apply: nl_err
| |- nolin (bind _ _) => apply: nl_bind; [|intro]
| |- nolin (mapM _ _) => apply: nl_mapM; intro
| |- nolin (foldM _ _ _) => apply: nl_foldM; intros
| |- nolin (if ?b then _ else _) => destruct b
| |- nolin (match ?x with _ => _ end) => destruct x
| |- nolin (let _ := _ in _) => cbv zeta
| |- nolin _ => solve [auto with nl nocore]
| |- nolin _ => progress cbv beta
end.
Ltac nl := repeat nl1.
(* the statement "f never returns LinAlgError, if its function arguments (and the linear maps of a
   user among its arguments) never do" *)
Ltac nlT f := let T := type of f in lazymatch T with
| res _ => exact (nolin f)
| forall x : (?A -> res ?B), _ => let y := fresh "y" in refine (forall y : A -> res B, (forall a, nolin (y a)) -> _); nlT (f y)
| forall x : (?A -> ?C -> res ?B), _ => let y := fresh "y" in refine (forall y : A -> C -> res B, (forall a b, nolin (y a b)) -> _); nlT (f y)
| forall x : mapsum ?A, _ => let y := fresh "y" in refine (forall y : mapsum A, quiet y -> _); nlT (f y)
| forall x : ttmap ?A, _ => let y := fresh "y" in refine (forall y : ttmap A, quiet_map y -> _); nlT (f y)
| forall x : res ?A, _ => let y := fresh "y" in refine (forall y : res A, nolin y -> _); nlT (f y)
| forall x : ?A, _ => let y := fresh "y" in refine (forall y : A, _); nlT (f y)
end.

Lemma nl_pyget : ltac:(nlT @pyget). Proof. intros; unfold pyget; nl. Qed.
#[export] Hint Resolve nl_pyget : nl.
Lemma nl_pyset : ltac:(nlT @pyset). Proof. intros; unfold pyset; nl. Qed.
#[export] Hint Resolve nl_pyset : nl.
Lemma nl_reshape : ltac:(nlT @reshape). Proof. intros; unfold reshape; nl. Qed.
#[export] Hint Resolve nl_reshape : nl.
Lemma nl_reshape_infer : ltac:(nlT @reshape_infer). Proof. intros; unfold reshape_infer; nl. Qed.
#[export] Hint Resolve nl_reshape_infer : nl.
Lemma nl_transpose : ltac:(nlT @transpose). Proof. intros; unfold transpose; nl. Qed.
#[export] Hint Resolve nl_transpose : nl.
Lemma nl_elementwise : ltac:(nlT @elementwise). Proof. intros; unfold elementwise; nl. Qed.
#[export] Hint Resolve nl_elementwise : nl.
Lemma nl_nadd : ltac:(nlT @nadd). Proof. intros; unfold nadd; nl. Qed.
#[export] Hint Resolve nl_nadd : nl.
Lemma nl_nsub : ltac:(nlT @nsub). Proof. intros; unfold nsub; nl. Qed.
#[export] Hint Resolve nl_nsub : nl.
Lemma nl_nmul : ltac:(nlT @nmul). Proof. intros; unfold nmul; nl. Qed.
#[export] Hint Resolve nl_nmul : nl.
Lemma nl_iadd : ltac:(nlT @iadd). Proof. intros; unfold iadd; nl. Qed.
#[export] Hint Resolve nl_iadd : nl.
Lemma nl_matmul : ltac:(nlT @matmul). Proof. intros; unfold matmul; nl. Qed.
#[export] Hint Resolve nl_matmul : nl.
Lemma nl_vdot : ltac:(nlT @vdot). Proof. intros; unfold vdot; nl. Qed.
#[export] Hint Resolve nl_vdot : nl.
Lemma nl_concat_ax : ltac:(nlT @concat_ax). Proof. intros; unfold concat_ax; nl. Qed.
#[export] Hint Resolve nl_concat_ax : nl.
Lemma nl_pick_ax : ltac:(nlT @pick_ax). Proof. intros; unfold pick_ax; nl. Qed.
#[export] Hint Resolve nl_pick_ax : nl.
Lemma nl_take_ax : ltac:(nlT @take_ax). Proof. intros; unfold take_ax; nl. Qed.
#[export] Hint Resolve nl_take_ax : nl.
Lemma nl_set1 : ltac:(nlT @set1). Proof. intros; unfold set1; nl. Qed.
#[export] Hint Resolve nl_set1 : nl.
Lemma nl_add_dim : ltac:(nlT @add_dim).
Proof.  induction y as [|p y IH]; intros; simpl; nl. Qed.
#[export] Hint Resolve nl_add_dim : nl.
Lemma nl_add_operand : ltac:(nlT @add_operand). Proof. intros; unfold add_operand; nl. Qed.
#[export] Hint Resolve nl_add_operand : nl.
Lemma nl_einsum_lbl : ltac:(nlT @einsum_lbl). Proof. intros; unfold einsum_lbl; nl. Qed.
#[export] Hint Resolve nl_einsum_lbl : nl.
Lemma nl_einsum : ltac:(nlT @einsum). Proof. intros; unfold einsum; nl. Qed.
#[export] Hint Resolve nl_einsum : nl.
Lemma nl_einsum_ell : ltac:(nlT @einsum_ell). Proof. intros; unfold einsum_ell; nl. Qed.
#[export] Hint Resolve nl_einsum_ell : nl.
Lemma nl_process_tt_rank : ltac:(nlT @process_tt_rank). Proof. intros; unfold process_tt_rank; nl. Qed.
#[export] Hint Resolve nl_process_tt_rank : nl.
Lemma nl_matricize : ltac:(nlT @matricize). Proof. intros; unfold matricize; nl. Qed.
#[export] Hint Resolve nl_matricize : nl.
Lemma nl_dematricize : ltac:(nlT @dematricize). Proof. intros; unfold dematricize; nl. Qed.
#[export] Hint Resolve nl_dematricize : nl.

Lemma tensor_ind' (R : ringType) (P : tensor R -> Prop) :
  (forall a, P (Dense a)) -> (forall s i v, P (Sparse s i v)) -> (forall cs, P (TT cs)) -> (forall cs, P (CP cs)) ->
  (forall fs c, P (Tucker fs c)) -> (forall s Xs, (forall Y, List.In Y Xs -> P Y) -> P (TSum s Xs)) -> forall X, P X.
Proof.
move=> h1 h2 h3 h4 h5 h6; fix IH 1; case=> [a|s i v|cs|cs|fs c|s Xs]; [exact: h1|exact: h2|exact: h3|exact: h4|exact: h5|].
apply: h6; elim: Xs => [|X Xs IHs] Y; [case | case=> [<-|hY]; [exact: IH|exact: IHs]].
Qed.
Lemma nl_mk_sum : ltac:(nlT @mk_sum). Proof. intros; unfold mk_sum; nl. Qed.
#[export] Hint Resolve nl_mk_sum : nl.
Lemma nl_dense_T : ltac:(nlT @dense_T). Proof. intros; unfold dense_T; nl. Qed.
#[export] Hint Resolve nl_dense_T : nl.
Lemma nl_tt_T : ltac:(nlT @tt_T). Proof. intros; unfold tt_T; nl. Qed.
#[export] Hint Resolve nl_tt_T : nl.
Lemma nl_tT : ltac:(nlT @tT).
Proof. move=> R; elim/tensor_ind'; intros; try by (cbn -[dense_T tt_T sparse_to_numpy tt_to_numpy cp_to_numpy tucker_to_numpy wrapped_sketch leaf_arr omega_leaf oleaf_arr psi_leaf tshape]; nl). apply: nl_bind => [|Ys]; last by nl. elim: Xs H => //= x l IH h; nl; [exact: h (or_introl erefl)|by apply: IH => Y hY; exact: h (or_intror hY)]. Qed.
#[export] Hint Resolve nl_tT : nl.
Lemma nl_sparse_to_numpy : ltac:(nlT @sparse_to_numpy). Proof. intros; unfold sparse_to_numpy; nl. Qed.
#[export] Hint Resolve nl_sparse_to_numpy : nl.
Lemma nl_tt_to_numpy : ltac:(nlT @tt_to_numpy). Proof. intros; unfold tt_to_numpy; nl. Qed.
#[export] Hint Resolve nl_tt_to_numpy : nl.
Lemma nl_cp_to_numpy : ltac:(nlT @cp_to_numpy). Proof. intros; unfold cp_to_numpy; nl. Qed.
#[export] Hint Resolve nl_cp_to_numpy : nl.
Lemma nl_tucker_to_numpy : ltac:(nlT @tucker_to_numpy). Proof. intros; unfold tucker_to_numpy; nl. Qed.
#[export] Hint Resolve nl_tucker_to_numpy : nl.
Lemma nl_to_numpy : ltac:(nlT @to_numpy).
Proof. move=> R; elim/tensor_ind'; intros; try by (cbn -[dense_T tt_T sparse_to_numpy tt_to_numpy cp_to_numpy tucker_to_numpy wrapped_sketch leaf_arr omega_leaf oleaf_arr psi_leaf tshape]; nl). rewrite /=; move: (zeros R s); elim: Xs H => //= x l IH h acc; nl; [exact: h (or_introl erefl)|by apply: IH => Y hY; exact: h (or_intror hY)]. Qed.
#[export] Hint Resolve nl_to_numpy : nl.
Lemma nl_tmul : ltac:(nlT @tmul).
Proof. move=> R; elim/tensor_ind'; intros; try by (cbn -[dense_T tt_T sparse_to_numpy tt_to_numpy cp_to_numpy tucker_to_numpy wrapped_sketch leaf_arr omega_leaf oleaf_arr psi_leaf tshape]; nl). apply: nl_bind => [|Ys]; last by nl. elim: Xs H => //= x l IH h; nl; [by apply: h; left|by apply: IH => Y hY; apply: h; right]. Qed.
#[export] Hint Resolve nl_tmul : nl.
Lemma nl_sum_mul_list : ltac:(nlT @sum_mul_list). Proof. intros; unfold sum_mul_list; nl. Qed.
#[export] Hint Resolve nl_sum_mul_list : nl.
Lemma nl_tneg : ltac:(nlT @tneg). Proof. intros; unfold tneg; nl. Qed.
#[export] Hint Resolve nl_tneg : nl.
Lemma nl_tadd : ltac:(nlT @tadd). Proof. intros; unfold tadd; nl. Qed.
#[export] Hint Resolve nl_tadd : nl.
Lemma nl_tsub : ltac:(nlT @tsub). Proof. intros; unfold tsub; nl. Qed.
#[export] Hint Resolve nl_tsub : nl.
Lemma nl_tiadd : ltac:(nlT @tiadd). Proof. intros; unfold tiadd; nl. Qed.
#[export] Hint Resolve nl_tiadd : nl.
Lemma nl_tt_add_mid : ltac:(nlT @tt_add_mid). Proof. intros; unfold tt_add_mid; nl. Qed.
#[export] Hint Resolve nl_tt_add_mid : nl.
Lemma nl_tt_add : ltac:(nlT @tt_add). Proof. intros; unfold tt_add; nl. Qed.
#[export] Hint Resolve nl_tt_add : nl.
Lemma nl_tt_gather_inner : ltac:(nlT @tt_gather_inner). Proof. intros; unfold tt_gather_inner; nl. Qed.
#[export] Hint Resolve nl_tt_gather_inner : nl.
Lemma nl_tt_gather_step : ltac:(nlT @tt_gather_step). Proof. intros; unfold tt_gather_step; nl. Qed.
#[export] Hint Resolve nl_tt_gather_step : nl.
Lemma nl_tt_gather : ltac:(nlT @tt_gather). Proof. intros; unfold tt_gather; nl. Qed.
#[export] Hint Resolve nl_tt_gather : nl.
Lemma nl_cp_gather : ltac:(nlT @cp_gather). Proof. intros; unfold cp_gather; nl. Qed.
#[export] Hint Resolve nl_cp_gather : nl.
Lemma nl_ravel_multi : ltac:(nlT @ravel_multi). Proof. intros; unfold ravel_multi; nl. Qed.
#[export] Hint Resolve nl_ravel_multi : nl.
Lemma nl_sparse_dict : ltac:(nlT @sparse_dict). Proof. intros; unfold sparse_dict; nl. Qed.
#[export] Hint Resolve nl_sparse_dict : nl.
Lemma nl_sparse_gather : ltac:(nlT @sparse_gather). Proof. intros; unfold sparse_gather; nl. Qed.
#[export] Hint Resolve nl_sparse_gather : nl.
Lemma nl_gather : ltac:(nlT @gather). Proof. intros; unfold gather; nl. Qed.
#[export] Hint Resolve nl_gather : nl.
Lemma nl_ldot : ltac:(nlT @ldot). Proof. intros; unfold ldot; nl. Qed.
#[export] Hint Resolve nl_ldot : nl.
Lemma nl_tt_dot : ltac:(nlT @tt_dot). Proof. intros; unfold tt_dot; nl. Qed.
#[export] Hint Resolve nl_tt_dot : nl.
Lemma nl_dense_dot : ltac:(nlT @dense_dot). Proof. intros; unfold dense_dot; nl. Qed.
#[export] Hint Resolve nl_dense_dot : nl.
Lemma nl_some A (x y : res A) : nolin x -> Some x = Some y -> nolin y.
Proof. by move=> h E; have <- : x = y by case: E. Qed.
Lemma nl_dot (R : comRingType) n X Y b r : @dot R n X Y b = Some r -> nolin r.
Proof.
elim: n X Y b r => // n IH X Y b r.
have base : match Y with TSum _ _ => dot n Y X false
            | _ => if ~~ b then dot n Y X true else Some (dense_dot X Y) end = Some r -> nolin r.
  by case: Y => [a|s i v|cs|cs|fs c|s Xs]; first [exact: IH | case: (b); cbn [negb]; [by apply: nl_some; nl | exact: IH]].
case: X base => [a|s i v|cs|cs|fs c|s Xs] base //=.
- have := @nl_gather _ Y i; case: (gather Y i) => [a|[]] h; first [exact: base | by apply: nl_some; first [exact: h | nl]].
- by case: Y base => [a'|s' i' v'|cs'|cs'|fs' c'|s' Xs'] base; first [exact: base | apply: nl_some; nl].
- clear base; elim: Xs r => [|x l IHl] r /=; first exact: nl_some.
  case E: (dot n x Y b) => [[v|e]|] //.
    case E2: (foldr _ _ _) => [[w|e]|] //; apply: nl_some => //; exact: (IHl _ E2).
  by apply: nl_some; apply: IH E.
Qed.
Lemma nl_sparse_split : ltac:(nlT @sparse_split). Proof. intros; unfold sparse_split; nl. Qed.
#[export] Hint Resolve nl_sparse_split : nl.
Lemma nl_flat_lr : ltac:(nlT @flat_lr). Proof. intros; unfold flat_lr; nl. Qed.
#[export] Hint Resolve nl_flat_lr : nl.
Lemma nl_flat_rl : ltac:(nlT @flat_rl). Proof. intros; unfold flat_rl; nl. Qed.
#[export] Hint Resolve nl_flat_rl : nl.
Lemma nl_partial_dense_lr : ltac:(nlT @partial_dense_lr). Proof. intros; unfold partial_dense_lr; nl. Qed.
#[export] Hint Resolve nl_partial_dense_lr : nl.
Lemma nl_partial_dense_rl : ltac:(nlT @partial_dense_rl). Proof. intros; unfold partial_dense_rl; nl. Qed.
#[export] Hint Resolve nl_partial_dense_rl : nl.
Lemma nl_tt_zero : ltac:(nlT @tt_zero). Proof. intros; unfold tt_zero; nl. Qed.
#[export] Hint Resolve nl_tt_zero : nl.
Lemma nl_tdiv : ltac:(nlT @tdiv). Proof. intros; unfold tdiv; nl. Qed.
#[export] Hint Resolve nl_tdiv : nl.
Lemma nl_tt_orth_loop : ltac:(nlT @tt_orth_loop).
Proof. move=> R qr hqr Rm cs; elim: cs Rm => //= C cs IH Rm; nl. Qed.
#[export] Hint Resolve nl_tt_orth_loop : nl.
Lemma nl_tt_orthogonalize : ltac:(nlT @tt_orthogonalize). Proof. intros; unfold tt_orthogonalize; nl. Qed.
#[export] Hint Resolve nl_tt_orthogonalize : nl.
Lemma nl_tt_norm : ltac:(nlT @tt_norm). Proof. intros; unfold tt_norm; nl. Qed.
#[export] Hint Resolve nl_tt_norm : nl.
Lemma nl_tnorm : ltac:(nlT @tnorm).
Proof. move=> R qr hqr n X; have h Y : nolin (match dot n X Y false with Some r => do v <- r; Ok (Num.sqrt `|v|) | None => Err RecursionError end) by (case E: (dot n X Y false) => [r|]; nl; exact: nl_dot E). by case: X h => [a|s i v|cs|cs|fs c|s Xs] h; rewrite /tnorm; first [exact: h | nl]. Qed.
#[export] Hint Resolve nl_tnorm : nl.
Lemma nl_error_tail : ltac:(nlT @error_tail). Proof. intros; unfold error_tail; nl. Qed.
#[export] Hint Resolve nl_error_tail : nl.
Lemma nl_tensor_error : ltac:(nlT @tensor_error).
Proof.
move=> R qr hqr n X Y rel rmse fast; rewrite /tensor_error; apply: nl_bind => [|on]; first by nl.
apply: nl_bind => [|e]; last by nl.
case: fast; last by nl.
apply: nl_bind => [|sn]; first by nl.
apply: nl_bind => [|d]; last by nl.
by case E: dot => [r|]; [exact: nl_dot E|nl].
Qed.
#[export] Hint Resolve nl_tensor_error : nl.
Lemma nl_tt_error : ltac:(nlT @tt_error). Proof. intros; unfold tt_error; nl. Qed.
#[export] Hint Resolve nl_tt_error : nl.
Lemma nl_terror : ltac:(nlT @terror). Proof. intros; unfold terror; nl. Qed.
#[export] Hint Resolve nl_terror : nl.
Lemma nl_count_above : ltac:(nlT @count_above). Proof. intros; unfold count_above; nl. Qed.
#[export] Hint Resolve nl_count_above : nl.
Lemma nl_round_loop : ltac:(nlT @round_loop).
Proof. move=> R svd hsvd eps mr US rcs; elim: rcs US => //= -[mu C] rcs IH US; nl. Qed.
#[export] Hint Resolve nl_round_loop : nl.
Lemma nl_tt_round : ltac:(nlT @tt_round). Proof. intros; unfold tt_round; nl. Qed.
#[export] Hint Resolve nl_tt_round : nl.
Lemma nl_svdvals_loop : ltac:(nlT @svdvals_loop).
Proof. move=> R svd hsvd US rcs; elim: rcs US => //= -[mu C] rcs IH US; nl. Qed.
#[export] Hint Resolve nl_svdvals_loop : nl.
Lemma nl_tt_svdvals : ltac:(nlT @tt_svdvals). Proof. intros; unfold tt_svdvals; nl. Qed.
#[export] Hint Resolve nl_tt_svdvals : nl.
Lemma nl_diag_mul : ltac:(nlT @diag_mul). Proof. intros; unfold diag_mul; nl. Qed.
#[export] Hint Resolve nl_diag_mul : nl.
Lemma nl_tt_svd_loop : ltac:(nlT @tt_svd_loop).
Proof. move=> R svd hsvd sh rk mus prev T; elim: mus prev T => //= mu mus IH prev T; nl. Qed.
#[export] Hint Resolve nl_tt_svd_loop : nl.
Lemma nl_tt_svd : ltac:(nlT @tt_svd). Proof. intros; unfold tt_svd; nl. Qed.
#[export] Hint Resolve nl_tt_svd : nl.
Lemma nl_dense_mat : ltac:(nlT @dense_mat). Proof. intros; unfold dense_mat; nl. Qed.
#[export] Hint Resolve nl_dense_mat : nl.
Lemma nl_dense_mats : ltac:(nlT @dense_mats). Proof. intros; unfold dense_mats; nl. Qed.
#[export] Hint Resolve nl_dense_mats : nl.
Lemma nl_drm_init : ltac:(nlT @drm_init). Proof. intros; unfold drm_init; nl. Qed.
#[export] Hint Resolve nl_drm_init : nl.
Lemma nl_drm_new : ltac:(nlT @drm_new). Proof. intros; unfold drm_new; nl. Qed.
#[export] Hint Resolve nl_drm_new : nl.
Lemma nl_drm_slice : ltac:(nlT @drm_slice). Proof. intros; unfold drm_slice; nl. Qed.
#[export] Hint Resolve nl_drm_slice : nl.
Lemma nl_drm_increase_rank : ltac:(nlT @drm_increase_rank). Proof. intros; unfold drm_increase_rank; nl. Qed.
#[export] Hint Resolve nl_drm_increase_rank : nl.
Lemma nl_gen_loop (R : comRingType) (body : nat -> option (nd R) -> res (nd R * nd R)) n : (forall mu st, nolin (body mu st)) -> nolin (gen_loop body n).
Proof. by move=> h; rewrite /gen_loop; nl; apply: h. Qed.
Ltac nlg := nl; apply: nl_gen_loop; intros; nl.
Lemma nl_window : ltac:(nlT @window). Proof. intros; unfold window; nl. Qed.
#[export] Hint Resolve nl_window : nl.
Lemma nl_ttdrm_sparse : ltac:(nlT @ttdrm_sparse).
Proof. intros; unfold ttdrm_sparse; nlg. Qed.
#[export] Hint Resolve nl_ttdrm_sparse : nl.
Lemma nl_ttdrm_tt : ltac:(nlT @ttdrm_tt).
Proof. intros; unfold ttdrm_tt; nlg. Qed.
#[export] Hint Resolve nl_ttdrm_tt : nl.
Lemma nl_ttdrm_cp : ltac:(nlT @ttdrm_cp).
Proof. intros; unfold ttdrm_cp; nlg. Qed.
#[export] Hint Resolve nl_ttdrm_cp : nl.
Lemma nl_ttdrm_dense : ltac:(nlT @ttdrm_dense).
Proof. intros; unfold ttdrm_dense; nlg. Qed.
#[export] Hint Resolve nl_ttdrm_dense : nl.
Lemma nl_ttdrm_tucker : ltac:(nlT @ttdrm_tucker).
Proof. intros; unfold ttdrm_tucker; nlg. Qed.
#[export] Hint Resolve nl_ttdrm_tucker : nl.
Lemma nl_dense_sparse : ltac:(nlT @dense_sparse). Proof. intros; unfold dense_sparse; nl. Qed.
#[export] Hint Resolve nl_dense_sparse : nl.
Lemma nl_dense_tt : ltac:(nlT @dense_tt). Proof. intros; unfold dense_tt; nl. Qed.
#[export] Hint Resolve nl_dense_tt : nl.
Lemma nl_gauss_sparse : ltac:(nlT @gauss_sparse). Proof. intros; unfold gauss_sparse; nl. Qed.
#[export] Hint Resolve nl_gauss_sparse : nl.
Lemma nl_swap : ltac:(nlT @swap). Proof. intros; unfold swap; nl. Qed.
#[export] Hint Resolve nl_swap : nl.
Lemma nl_sign_row_perm : ltac:(nlT @sign_row_perm). Proof. intros; unfold sign_row_perm; nl. Qed.
#[export] Hint Resolve nl_sign_row_perm : nl.
Lemma nl_sparse_sign_flat : ltac:(nlT @sparse_sign_flat). Proof. intros; unfold sparse_sign_flat; nl. Qed.
#[export] Hint Resolve nl_sparse_sign_flat : nl.
Lemma nl_inds_to_sparse_sign : ltac:(nlT @inds_to_sparse_sign). Proof. intros; unfold inds_to_sparse_sign; nl. Qed.
#[export] Hint Resolve nl_inds_to_sparse_sign : nl.
Lemma nl_sign_sparse : ltac:(nlT @sign_sparse). Proof. intros; unfold sign_sparse; nl. Qed.
#[export] Hint Resolve nl_sign_sparse : nl.
Lemma nl_leaf_sketch : ltac:(nlT @leaf_sketch). Proof. intros; unfold leaf_sketch; nl. Qed.
#[export] Hint Resolve nl_leaf_sketch : nl.
Lemma nl_wrapped_sketch : ltac:(nlT @wrapped_sketch). Proof. intros; unfold wrapped_sketch; nl. Qed.
#[export] Hint Resolve nl_wrapped_sketch : nl.
Lemma nl_sketch_upto : ltac:(nlT @sketch_upto).
Proof. 
move=> R f D n; elim/tensor_ind' => [a|s i v|cs|cs|fs c|s Xs IH]; try (cbn [sketch_upto]; by nl).
apply: nl_bind => [|Ls]; last by nl.
elim: Xs IH => //= x l IHl IH; apply: nl_bind => [|z]; first by apply: IH; left.
by apply: nl_bind => [|zs]; [apply: IHl => Y hY; apply: IH; right|nl].
 Qed.
#[export] Hint Resolve nl_sketch_upto : nl.
Lemma nl_sketch_all : ltac:(nlT @sketch_all). Proof. intros; unfold sketch_all; nl. Qed.
#[export] Hint Resolve nl_sketch_all : nl.
Lemma nl_leaf_arr : ltac:(nlT @leaf_arr). Proof. intros; unfold leaf_arr; nl. Qed.
#[export] Hint Resolve nl_leaf_arr : nl.
Lemma nl_omega_leaf : ltac:(nlT @omega_leaf). Proof. intros; unfold omega_leaf; nl. Qed.
#[export] Hint Resolve nl_omega_leaf : nl.
Lemma nl_omega : ltac:(nlT @omega).
Proof. 
move=> R; elim/tensor_ind' => [a|s i v|cs|cs|fs c|s Xs IH] mu os L Rt; try (cbn [omega]; by nl).
cbn [omega]; case: L Rt => [l|ls] [r|rs]; try by nl.
move: (zeros R os); elim: Xs IH ls rs => //= x l IHl IH [|a ls] [|b rs] acc; try by nl.
apply: nl_bind => [|w]; first by apply: IH; left.
by apply: nl_bind => [|acc']; [nl|apply: IHl => Y hY; apply: IH; right].
 Qed.
#[export] Hint Resolve nl_omega : nl.
Lemma nl_psi_tt : ltac:(nlT @psi_tt). Proof. intros; unfold psi_tt; nl. Qed.
#[export] Hint Resolve nl_psi_tt : nl.
Lemma nl_psi_cp : ltac:(nlT @psi_cp). Proof. intros; unfold psi_cp; nl. Qed.
#[export] Hint Resolve nl_psi_cp : nl.
Lemma nl_psi_dense : ltac:(nlT @psi_dense). Proof. intros; unfold psi_dense; nl. Qed.
#[export] Hint Resolve nl_psi_dense : nl.
Lemma nl_psi_tucker : ltac:(nlT @psi_tucker). Proof. intros; unfold psi_tucker; nl. Qed.
#[export] Hint Resolve nl_psi_tucker : nl.
Lemma nl_psi_core_slice : ltac:(nlT @psi_core_slice). Proof. intros; unfold psi_core_slice; nl. Qed.
#[export] Hint Resolve nl_psi_core_slice : nl.
Lemma nl_set_mid : ltac:(nlT @set_mid). Proof. intros; unfold set_mid; nl. Qed.
#[export] Hint Resolve nl_set_mid : nl.
Lemma nl_psi_sparse : ltac:(nlT @psi_sparse). Proof. intros; unfold psi_sparse; nl. Qed.
#[export] Hint Resolve nl_psi_sparse : nl.
Lemma nl_oleaf_arr : ltac:(nlT @oleaf_arr). Proof. intros; unfold oleaf_arr; nl. Qed.
#[export] Hint Resolve nl_oleaf_arr : nl.
Lemma nl_psi_leaf : ltac:(nlT @psi_leaf). Proof. intros; unfold psi_leaf; nl. Qed.
#[export] Hint Resolve nl_psi_leaf : nl.
Lemma nl_spread : ltac:(nlT @spread). Proof. intros; unfold spread; nl. Qed.
#[export] Hint Resolve nl_spread : nl.
Lemma nl_psi : ltac:(nlT @psi).
Proof. 
move=> R; elim/tensor_ind' => [a|s i v|cs|cs|fs c|s Xs IH] mu os L Rt; try (cbn [psi]; by nl).
cbn [psi]; apply: nl_bind => [|ls]; first by nl.
apply: nl_bind => [|rs]; first by nl.
move: (zeros R os); elim: Xs IH ls rs => //= x l IHl IH [|a ls] [|b rs] acc; try by nl.
apply: nl_bind => [|w]; first by apply: IH; left.
by apply: nl_bind => [|acc']; [nl|apply: IHl => Y hY; apply: IH; right].
 Qed.
#[export] Hint Resolve nl_psi : nl.
Lemma nl_right_mul_pinv : ltac:(nlT @right_mul_pinv). Proof. intros; unfold right_mul_pinv; nl. Qed.
#[export] Hint Resolve nl_right_mul_pinv : nl.
Lemma nl_left_mul_pinv : ltac:(nlT @left_mul_pinv). Proof. intros; unfold left_mul_pinv; nl. Qed.
#[export] Hint Resolve nl_left_mul_pinv : nl.
Lemma nl_orth_step : ltac:(nlT @orth_step). Proof. intros; unfold orth_step; nl. Qed.
#[export] Hint Resolve nl_orth_step : nl.
Lemma nl_orthog_next : ltac:(nlT @orthog_next). Proof. intros; unfold orthog_next; nl. Qed.
#[export] Hint Resolve nl_orthog_next : nl.
Lemma nl_psi_step : ltac:(nlT @psi_step). Proof. intros; unfold psi_step; nl. Qed.
#[export] Hint Resolve nl_psi_step : nl.
Lemma nl_general_sketch : ltac:(nlT @general_sketch). Proof. intros; unfold general_sketch; nl. Qed.
#[export] Hint Resolve nl_general_sketch : nl.
Lemma nl_container_add : ltac:(nlT @container_add). Proof. intros; unfold container_add; nl. Qed.
#[export] Hint Resolve nl_container_add : nl.
Lemma nl_container_T : ltac:(nlT @container_T). Proof. intros; unfold container_T; nl. Qed.
#[export] Hint Resolve nl_container_T : nl.
Lemma nl_container_mul : ltac:(nlT @container_mul). Proof. intros; unfold container_mul; nl. Qed.
#[export] Hint Resolve nl_container_mul : nl.
Lemma nl_container_neg : ltac:(nlT @container_neg). Proof. intros; unfold container_neg; nl. Qed.
#[export] Hint Resolve nl_container_neg : nl.
Lemma nl_container_sub : ltac:(nlT @container_sub). Proof. intros; unfold container_sub; nl. Qed.
#[export] Hint Resolve nl_container_sub : nl.
Lemma nl_bcast_tuples : ltac:(nlT @bcast_tuples). Proof. intros; unfold bcast_tuples; nl. Qed.
#[export] Hint Resolve nl_bcast_tuples : nl.
Lemma nl_all_gt : ltac:(nlT @all_gt). Proof. intros; unfold all_gt; nl. Qed.
#[export] Hint Resolve nl_all_gt : nl.
Lemma nl_assemble : ltac:(nlT @assemble). Proof. intros; unfold assemble; nl. Qed.
#[export] Hint Resolve nl_assemble : nl.
Lemma nl_rank_gt : ltac:(nlT @rank_gt). Proof. intros; unfold rank_gt; nl. Qed.
#[export] Hint Resolve nl_rank_gt : nl.
Lemma nl_make_drms : ltac:(nlT @make_drms). Proof. intros; unfold make_drms; nl. Qed.
#[export] Hint Resolve nl_make_drms : nl.
Lemma nl_stream_sketch : ltac:(nlT @stream_sketch). Proof. intros; unfold stream_sketch; nl. Qed.
#[export] Hint Resolve nl_stream_sketch : nl.
Lemma nl_orthogonal_sketch : ltac:(nlT @orthogonal_sketch). Proof. intros; unfold orthogonal_sketch; nl. Qed.
#[export] Hint Resolve nl_orthogonal_sketch : nl.
Lemma nl_hmt_sketch : ltac:(nlT @hmt_sketch). Proof. intros; unfold hmt_sketch; nl. Qed.
#[export] Hint Resolve nl_hmt_sketch : nl.
Lemma nl_stt_to_tt : ltac:(nlT @stt_to_tt). Proof. intros; unfold stt_to_tt; nl. Qed.
#[export] Hint Resolve nl_stt_to_tt : nl.
Lemma nl_stt_T : ltac:(nlT @stt_T). Proof. intros; unfold stt_T; nl. Qed.
#[export] Hint Resolve nl_stt_T : nl.
Lemma nl_stt_add : ltac:(nlT @stt_add). Proof. intros; unfold stt_add; nl. Qed.
#[export] Hint Resolve nl_stt_add : nl.
Lemma nl_stt_mul : ltac:(nlT @stt_mul). Proof. intros; unfold stt_mul; nl. Qed.
#[export] Hint Resolve nl_stt_mul : nl.
Lemma nl_blocked_components : ltac:(nlT @blocked_components). Proof. intros; unfold blocked_components; nl. Qed.
#[export] Hint Resolve nl_blocked_components : nl.
Lemma nl_set_block3 : ltac:(nlT @set_block3). Proof. intros; unfold set_block3; nl. Qed.
#[export] Hint Resolve nl_set_block3 : nl.
Lemma nl_set_block2 : ltac:(nlT @set_block2). Proof. intros; unfold set_block2; nl. Qed.
#[export] Hint Resolve nl_set_block2 : nl.
Lemma nl_put_block : ltac:(nlT @put_block). Proof. intros; unfold put_block; nl. Qed.
#[export] Hint Resolve nl_put_block : nl.
Lemma nl_assemble_blocked : ltac:(nlT @assemble_blocked). Proof. intros; unfold assemble_blocked; nl. Qed.
#[export] Hint Resolve nl_assemble_blocked : nl.
Lemma nl_blocked_stream_sketch : ltac:(nlT @blocked_stream_sketch). Proof. intros; unfold blocked_stream_sketch; nl. Qed.
#[export] Hint Resolve nl_blocked_stream_sketch : nl.
Lemma nl_stt_increase_rank : ltac:(nlT @stt_increase_rank). Proof. intros; unfold stt_increase_rank; nl. Qed.
#[export] Hint Resolve nl_stt_increase_rank : nl.
Lemma nl_mpo_T : ltac:(nlT @mpo_T). Proof. intros; unfold mpo_T; nl. Qed.
#[export] Hint Resolve nl_mpo_T : nl.
Lemma nl_mpo_to_tt : ltac:(nlT @mpo_to_tt). Proof. intros; unfold mpo_to_tt; nl. Qed.
#[export] Hint Resolve nl_mpo_to_tt : nl.
Lemma nl_mpo_to_numpy : ltac:(nlT @mpo_to_numpy). Proof. intros; unfold mpo_to_numpy; nl. Qed.
#[export] Hint Resolve nl_mpo_to_numpy : nl.
Lemma nl_mpo_call : ltac:(nlT @mpo_call). Proof. intros; unfold mpo_call; nl. Qed.
#[export] Hint Resolve nl_mpo_call : nl.
Lemma nl_mpo_eye : ltac:(nlT @mpo_eye). Proof. intros; unfold mpo_eye; nl. Qed.
#[export] Hint Resolve nl_mpo_eye : nl.
Lemma nl_mpo_mul : ltac:(nlT @mpo_mul). Proof. intros; unfold mpo_mul; nl. Qed.
#[export] Hint Resolve nl_mpo_mul : nl.
Lemma nl_precond_new : ltac:(nlT @precond_new). Proof. intros; unfold precond_new; nl. Qed.
#[export] Hint Resolve nl_precond_new : nl.
Lemma nl_solve_triangular : ltac:(nlT @solve_triangular). Proof. intros; unfold solve_triangular; nl. Qed.
#[export] Hint Resolve nl_solve_triangular : nl.
Lemma nl_precond_backward : ltac:(nlT @precond_backward). Proof. intros; unfold precond_backward; nl. Qed.
#[export] Hint Resolve nl_precond_backward : nl.
Lemma nl_precond_forward : ltac:(nlT @precond_forward). Proof. intros; unfold precond_forward; nl. Qed.
#[export] Hint Resolve nl_precond_forward : nl.
Lemma nl_map_call : ltac:(nlT @map_call).
Proof. by move=> R solve hs f hf cs; case: f hf => [ms|p|ins outs call] hf; rewrite /map_call; [nl|nl|exact: hf]. Qed.
#[export] Hint Resolve nl_map_call : nl.
Lemma nl_mapsum_new : ltac:(nlT @mapsum_new). Proof. intros; unfold mapsum_new; nl. Qed.
#[export] Hint Resolve nl_mapsum_new : nl.
Lemma nl_cores_of : ltac:(nlT @cores_of). Proof. intros; unfold cores_of; nl. Qed.
#[export] Hint Resolve nl_cores_of : nl.
Lemma nl_tensors_of : ltac:(nlT @tensors_of). Proof. intros; unfold tensors_of; nl. Qed.
#[export] Hint Resolve nl_tensors_of : nl.
Lemma nl_mapM_in A B (f : A -> res B) l : (forall a, List.In a l -> nolin (f a)) -> nolin (mapM f l).
Proof.
elim: l => //= a l IH h; apply: nl_bind => [|b]; first by apply: h; left.
by apply: nl_bind => // ; apply: IH => c hc; apply: h; right.
Qed.
Lemma nl_mapsum_call : ltac:(nlT @mapsum_call).
Proof.
move=> R solve hs A hA X; rewrite /mapsum_call; apply: nl_bind => [|l]; first by nl.
apply: nl_bind => [|Zs]; last by nl.
apply: nl_mapM_in => -[f Y] hp.
have hq : quiet_map f.
  move: hA hp; rewrite /quiet; elim: (m_maps A) => //= h fs IH hA hp.
  case: (List.in_app_or _ _ _ hp) => {}hp.
    by elim: l hp {IH} => [[]|Z l IHl] /= [[<- _]|]; [apply: hA; left|exact: IHl].
  by apply: IH => // k hk; apply: hA; right.
by nl.
Qed.
#[export] Hint Resolve nl_mapsum_call : nl.
Lemma nl_add_all : ltac:(nlT @add_all). Proof. intros; unfold add_all; nl. Qed.
#[export] Hint Resolve nl_add_all : nl.
Lemma nl_round_tt_sum : ltac:(nlT @round_tt_sum). Proof. intros; unfold round_tt_sum; nl. Qed.
#[export] Hint Resolve nl_round_tt_sum : nl.
Lemma nl_round_call : ltac:(nlT @round_call). Proof. intros; unfold round_call; nl. Qed.
#[export] Hint Resolve nl_round_call : nl.
Lemma nl_tdivf : ltac:(nlT @tdivf). Proof. intros; unfold tdivf; nl. Qed.
#[export] Hint Resolve nl_tdivf : nl.
Lemma nl_finite : ltac:(nlT @finite). Proof. intros; unfold finite; nl. Qed.
#[export] Hint Resolve nl_finite : nl.
Lemma nl_rank_of : ltac:(nlT @rank_of). Proof. intros; unfold rank_of; nl. Qed.
#[export] Hint Resolve nl_rank_of : nl.
Lemma nl_norm_of : ltac:(nlT @norm_of). Proof. intros; unfold norm_of; nl. Qed.
#[export] Hint Resolve nl_norm_of : nl.
Lemma nl_dot_of : ltac:(nlT @dot_of).
Proof. intros; unfold dot_of; case E: dot => [r|]; [exact: nl_dot E|nl]. Qed.
#[export] Hint Resolve nl_dot_of : nl.
Lemma nl_apply_A_pr : ltac:(nlT @apply_A_pr). Proof. intros; unfold apply_A_pr; nl. Qed.
#[export] Hint Resolve nl_apply_A_pr : nl.
Lemma nl_gmres_step : ltac:(nlT @gmres_step). Proof. intros; unfold gmres_step; nl. Qed.
#[export] Hint Resolve nl_gmres_step : nl.
Lemma nl_gmres_loop : ltac:(nlT @gmres_loop).
Proof. intros; match goal with |- nolin (gmres_loop _ _ _ _ _ _ _ _ _ _ _ _ _ _ _ _ _ _ _ _ ?st ?j ?n) => revert st j; induction n as [|n IH]; intros st j; cbn [gmres_loop]; nl end. Qed.
#[export] Hint Resolve nl_gmres_loop : nl.
Lemma nl_tt_sum_gmres : ltac:(nlT @tt_sum_gmres). Proof. intros; unfold tt_sum_gmres; nl. Qed.
#[export] Hint Resolve nl_tt_sum_gmres : nl.
