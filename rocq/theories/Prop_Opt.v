(* C14 continued: TensorTrain.round with eps = 0 is quasi-optimal.
   [unfolding s x k] (RecSpec.v) is the matrix of the entries of x whose rows are the indices of
   the modes 0..k and whose columns are those of the remaining modes; \rank is mathcomp's rank. *)
From Coq Require Import String Ascii NArith.
From mathcomp Require Import all_ssreflect all_algebra.
From mathcomp Require Import zify.
From Verif Require Import Py Nd NdThy Utils Tensor Spec LinSpec ChainThy TensorThy2 TensorThy4 GatherThy DotThy TrimThy.
From Verif Require Import TensorNum SweepThy NormThy RoundSpec RoundThy ErrThy RoundThy2 RoundOpt.
From Verif Require Import Sketch SkSpec RecSpec SkThy14 RankThy.
Set Implicit Arguments. Unset Strict Implicit. Unset Printing Implicit Defensive.
Import GRing.Theory Num.Theory Order.TTheory.
Local Open Scope ring_scope.

Section Core.
Variable R : rcfType.
Notation arr := (nd R).
Implicit Types (cs : seq arr).
Variable qr : arr -> res (arr * arr).
Variable svd : arr -> res (arr * arr * arr).
Hypothesis qrP : qr_contract qr.
Hypothesis svdP : svd_contract svd.

Definition opt_bonds cs (rk : seq nat) (dropped : seq (seq R)) : Prop :=
  forall k y, (k < (size cs).-1)%N ->
   (\rank (unfolding (tshape (TT cs : tensor R)) y k) <= maxn 1 (nth 0%N rk k))%N ->
   \sum_(s <- nth [::] dropped k) s ^+ 2 <= sum_idx (tshape (TT cs)) (fun i => (den (TT cs) i - y i) ^+ 2).

Lemma round_optP cs rk : wf_tt cs -> pos_tt cs -> all_but_last (fun C => left_orth C) cs ->
  size rk = (size cs).-1 ->
  or_linalg (do nc <- round_loop_g svd 0 rk None (rev (zip (iota 0 (size cs)) cs));
             Ok (rev nc.1, rev nc.2)) (fun r => opt_bonds cs rk r.2).
Proof.
case/lastP: cs => [|ls C] // /andP[_ L] P A srk; rewrite size_rcons /= in srk.
have [r0 [Ll wC sC]] := links_rcons L.
have Pls : pos_tt ls /\ (0 < dim C 1)%N.
  by move: P; rewrite /pos_tt all_rcons => /andP[/andP[-> _] ->].
rewrite round_loopN.
have sz : (size ls <= size rk)%N by rewrite srk.
apply: (or_bind (round_bodyQ svdP Ll (abl_rcons A) Pls.1 wC sC Pls.2 (ltn0Sn 0) sz)).
case=> res1 res2 [S Q] /= k y; rewrite size_rcons /= => hk /bond_rankP[f [g e]].
have := Q k (fun i _ => y i) (maxn 1 (nth 0%N rk k)) f (fun c j _ => g c j) hk (leqnn _).
rewrite /= sqsum1; apply=> i j b hi hj _; exact: e.
Qed.

Lemma opt_same cs tt1 rk l : orthogonalized cs tt1 -> opt_bonds tt1 rk l -> opt_bonds cs rk l.
Proof.
move=> [w1 S1 _ _ G1] H k y hk hy.
have sz : size tt1 = size cs by move/(f_equal size): S1; rewrite /= !size_map.
have := H k y; rewrite sz S1 => /(_ hk hy) h; apply: le_trans h _; rewrite le_eqVlt; apply/orP; left; apply/eqP.
by apply: eq_sum_idx => i hi; rewrite G1.
Qed.

Lemma round_g_opt cs eps m o : round_args cs m o -> (eps = None \/ eps = Some 0) ->
  or_linalg (tt_round_g qr svd cs eps m o) (fun r => exists tt1 rk,
    [/\ (if o then tt1 = cs else orthogonalized cs tt1),
        process_tt_rank (if m is Some m' then m' else RTuple (tt_rank tt1)) (tshape (TT cs : tensor R)) true = Ok rk,
        round_post_tt 0 cs rk r & opt_bonds cs rk r.2]).
Proof.
move=> [w p oP mP] e0; have ee : (if eps is Some e then e else 0) = 0 :> R by case: e0 => ->.
have := tt_round_gP qrP svdP eps w p oP mP; case: (tt_round_g _ _ _ _ _ _) => [r|e] //=.
rewrite ee => -[tt1 [rk [H1 H2 H3 H4]]]; exists tt1, rk; split=> //.
have [srk _] := process_size (pos_shape p) H2.
have srk' : size rk = (size cs).-1 by rewrite srk /= size_map.
case: o oP H1 H2 H4 => oP H1 H2 H4.
  by subst tt1; have := round_optP w p (oP isT) srk'; rewrite H4.
apply: (opt_same H1); case: H1 => w1 S1 _ [A1 P1] _.
have sz : size tt1 = size cs by move/(f_equal size): S1; rewrite /= !size_map.
have A1' : all_but_last (fun C => left_orth C) tt1 by move=> k /A1[].
by have := round_optP w1 P1 A1' (etrans srk' (congr1 predn (esym sz))); rewrite H4.
Qed.

Lemma sum_sq_nth (l : seq (seq R)) n : size l = n -> sum_sq l = \sum_(0 <= k < n) \sum_(s <- nth [::] l k) s ^+ 2.
Proof. by move=> <-; rewrite /sum_sq (big_nth [::]). Qed.
End Core.

(* Bond by bond: the squared error is at most the sum over the bonds of the squared distances to
   ANY tensors y_k whose rank at bond k is within the (trimmed) rank used there.  In particular
   the error of round is at most sqrt(sum_k dist_k^2), dist_k the best approximation of bond k. *)
Theorem C14_bondwise_optimal (R : rcfType) qr svd (cs : seq (nd R)) eps (m : ttrank) (o : bool) rk :
  qr_contract qr -> svd_contract svd -> round_args cs (Some m) o -> (eps = None \/ eps = Some 0) ->
  process_tt_rank m (tshape (TT cs)) true = Ok rk ->
  or_linalg (tt_round qr svd cs eps (Some m) o) (fun out =>
    exists a b, [/\ to_numpy (TT cs) = Ok a, to_numpy (TT out) = Ok b, nshape b = nshape a &
      forall y : nat -> seq nat -> R,
      (forall k, (k < (size cs).-1)%N -> (\rank (unfolding (nshape a) (y k) k) <= maxn 1 (nth 0 rk k))%N) ->
      sum_idx (nshape a) (fun i => (get a i - get b i) ^+ 2)
      <= \sum_(0 <= k < (size cs).-1) sum_idx (nshape a) (fun i => (get a i - y k i) ^+ 2)]).
Proof.
move=> qrP svdP ra e0 E; rewrite round_erase; have := round_g_opt qrP svdP ra e0; case: ra => w _ _ _.
case: (tt_round_g _ _ _ _ _ _) => [r|e] //= [tt1 [rk' [_ E' [w' S' _ [_ _ [sz _] _] [D _]] O]]].
move: E'; rewrite E => -[ek]; rewrite -{rk'}ek in O.
have [a Ea [wa sa ga]] := to_numpyE (w : wf (TT cs)); have [b Eb [_ sb _]] := to_numpyE (w' : wf (TT r.1)).
exists a, b; split=> //; first by rewrite sa sb S'.
move=> y hy; rewrite -(sqdist_obs (w : wf (TT cs)) (w' : wf (TT r.1)) _ Ea Eb) // D (sum_sq_nth sz).
rewrite big_nat [X in _ <= X]big_nat; apply: ler_sum => k /andP[_ hk].
have := hy k hk; rewrite sa => h; apply: le_trans (O k (y k) hk h) _; rewrite le_eqVlt; apply/orP; left; apply/eqP.
by apply: eq_sum_idx => i hi; rewrite ga.
Qed.

(* The whole tensor: round is within the factor sqrt(d-1) of the best approximation by any tensor
   whose unfoldings have ranks within the requested (positive, untrimmed) ranks *)
Theorem C14_quasi_optimal (R : rcfType) qr svd (cs : seq (nd R)) eps (m : ttrank) (o : bool) rk :
  qr_contract qr -> svd_contract svd -> round_args cs (Some m) o -> (eps = None \/ eps = Some 0) ->
  process_tt_rank m (tshape (TT cs)) false = Ok rk -> all (fun r => 0 < r)%N rk ->
  or_linalg (tt_round qr svd cs eps (Some m) o) (fun out =>
    exists a b, [/\ to_numpy (TT cs) = Ok a, to_numpy (TT out) = Ok b, nshape b = nshape a &
      forall y : seq nat -> R,
      (forall k, (k < (size cs).-1)%N -> (\rank (unfolding (nshape a) y k) <= nth 0 rk k)%N) ->
      sum_idx (nshape a) (fun i => (get a i - get b i) ^+ 2)
      <= (size cs).-1%:R * sum_idx (nshape a) (fun i => (get a i - y i) ^+ 2)]).
Proof.
move=> qrP svdP ra e0 E rk0; case: (ra) => w p _ _; have ps := pos_shape p.
have [srk s0] := process_size ps E; have E' := process_trimE true E.
have := C14_bondwise_optimal qrP svdP ra e0 E'; case: (tt_round _ _ _ _ _ _) => [out|e] //= [a [b [Ea Eb sab H]]].
exists a, b; split=> // y hy; have [a' Ea' [_ sa _]] := to_numpyE (w : wf (TT cs)).
have [ea] : Ok a = Ok a' := etrans (esym Ea) Ea'; rewrite -ea in sa.
have sz : (size (tshape (TT cs : tensor R)) = size cs) by rewrite /= size_map.
apply: le_trans (H (fun _ => y) _) _.
  move=> k hk; apply: leq_trans (leq_maxr _ _); rewrite sa; apply: rank_trim => //; last by rewrite sz.
  by move=> mu; rewrite sz -sa; apply: hy.
by rewrite big_const_nat subn0 iter_addr addr0 mulr_natl.
Qed.

(* the same for competitors given as tensor trains *)
Theorem C14_quasi_optimal_tt (R : rcfType) qr svd (cs ds : seq (nd R)) eps (m : ttrank) (o : bool) rk :
  qr_contract qr -> svd_contract svd -> round_args cs (Some m) o -> (eps = None \/ eps = Some 0) ->
  process_tt_rank m (tshape (TT cs)) false = Ok rk -> all (fun r => 0 < r)%N rk ->
  wf (TT ds) -> tshape (TT ds) = tshape (TT cs) -> (forall k, (nth 0 (tt_rank ds) k <= nth 0 rk k)%N) ->
  or_linalg (tt_round qr svd cs eps (Some m) o) (fun out =>
    exists a b c, [/\ to_numpy (TT cs) = Ok a, to_numpy (TT out) = Ok b, to_numpy (TT ds) = Ok c &
      sum_idx (nshape a) (fun i => (get a i - get b i) ^+ 2)
      <= (size cs).-1%:R * sum_idx (nshape a) (fun i => (get a i - get c i) ^+ 2)]).
Proof.
move=> qrP svdP ra e0 E rk0 wd sd hd; have := C14_quasi_optimal qrP svdP ra e0 E rk0.
case: (tt_round _ _ _ _ _ _) => [out|e] //= [a [b [Ea Eb sab H]]].
case: ra => w _ _ _; have [a' Ea' [_ sa _]] := to_numpyE (w : wf (TT cs)).
have [ea] : Ok a = Ok a' := etrans (esym Ea) Ea'; rewrite -ea in sa.
have [c Ec [_ sc gc]] := to_numpyE wd; exists a, b, c; split=> //.
have sz : size ds = size cs by move/(f_equal size): sd; rewrite /= !size_map.
apply: le_trans (H (den (TT ds)) _) _; last first.
  rewrite le_eqVlt; apply/orP; left; apply/eqP; congr (_ * _); apply: eq_sum_idx => i.
  by rewrite sa -sd => hi; rewrite gc.
move=> k hk; rewrite sa -sd; apply/bond_rankP; apply: bond_mono (hd k) _.
by apply: bond_train => //; rewrite sz; clear -hk; lia.
Qed.

(* exactness: the tensor is unchanged when its unfoldings have ranks within the request *)
Theorem C14_exact_rank (R : rcfType) qr svd (cs : seq (nd R)) eps (m : ttrank) (o : bool) rk a :
  qr_contract qr -> svd_contract svd -> round_args cs (Some m) o -> (eps = None \/ eps = Some 0) ->
  process_tt_rank m (tshape (TT cs)) false = Ok rk -> all (fun r => 0 < r)%N rk ->
  to_numpy (TT cs) = Ok a ->
  (forall k, (k < (size cs).-1)%N -> (\rank (unfolding (nshape a) (get a) k) <= nth 0 rk k)%N) ->
  or_linalg (tt_round qr svd cs eps (Some m) o) (fun out => to_numpy (TT out) = Ok a).
Proof.
move=> qrP svdP ra e0 E rk0 Ea hr.
have W : or_linalg (tt_round qr svd cs eps (Some m) o) (fun out => wf (TT out) /\ tshape (TT out) = tshape (TT cs)).
  have [rk' E'] : exists rk', process_tt_rank m (tshape (TT cs : tensor R)) true = Ok rk' by case: ra.
  by have := roundP qrP svdP eps ra E'; case: (tt_round _ _ _ _ _ _) => [out|e] //= [].
have := C14_quasi_optimal qrP svdP ra e0 E rk0; move: W.
case: (tt_round _ _ _ _ _ _) => [out|e] //= [w' S'] [a' [b [Ea' Eb sab H]]].
have [ea] : Ok a = Ok a' := etrans (esym Ea) Ea'; rewrite -ea in H sab *.
case: ra => w _ _ _; rewrite -Ea; symmetry; apply: (@sqdist0 R (TT cs) (TT out)) => //.
rewrite (sqdist_obs (w : wf (TT cs)) (w' : wf (TT out)) _ Ea Eb) //; apply/eqP; rewrite eq_le.
have := H (get a) hr; rewrite [X in _ * X](_ : _ = 0) ?mulr0; last first.
  rewrite sum_idxE big1_seq // => i _; by rewrite subrr expr0n.
by move=> ->; rewrite sum_idx_ge0 // => i; exact: sqr_ge0.
Qed.

(* round() without arguments never changes the tensor *)
Theorem C14_default_exact (R : rcfType) qr svd (cs : seq (nd R)) :
  qr_contract qr -> svd_contract svd -> wf (TT cs) -> pos_tt cs ->
  or_linalg (tt_round qr svd cs None None false) (fun out => to_numpy (TT out) = to_numpy (TT cs)).
Proof.
move=> qrP svdP w p; rewrite round_erase.
have ra : round_args cs None false by split.
have := round_g_opt qrP svdP ra (or_introl erefl).
case: (tt_round_g _ _ _ _ _ _) => [r|e] //= [tt1 [rk [[w1 S1 _ [_ P1] G1] E [w' S' _ [_ _ [sz _] _] [D _]] O]]].
have sz1 : size tt1 = size cs by move/(f_equal size): S1; rewrite /= !size_map.
have s0 : (0 < size cs)%N by case: (cs) w.
have ps := pos_shape p.
have ss : size (tshape (TT cs : tensor R)) = size cs by rewrite /= size_map.
move: E; rewrite process_tuple ?ss // size_tt_rank sz1 eqxx => -[erk].
have pr : all (fun n => 0 < n)%N (tt_rank tt1) by move: P1; rewrite (pos_ttE w1) => /andP[].
symmetry; apply: (@sqdist0 R (TT cs) (TT r.1)) => //; rewrite D.
apply: sum_sq0 => d /(nthP [::])[k]; rewrite sz => hk <- s hs.
have rk1 mu : (mu < (size (tshape (TT cs : tensor R))).-1)%N ->
   (\rank (unfolding (tshape (TT cs)) (den (TT tt1)) mu) <= nth 0 (tt_rank tt1) mu)%N.
  rewrite ss => hmu; apply/bond_rankP; rewrite -S1; apply: bond_train => //; rewrite sz1; clear -hmu; lia.
have hk' : (\rank (unfolding (tshape (TT cs)) (den (TT tt1)) k) <= maxn 1 (nth 0%N rk k))%N.
  rewrite -erk; apply: leq_trans (leq_maxr _ _); apply: rank_trim => //; rewrite ss ?size_tt_rank ?sz1 //.
have := O k (den (TT tt1)) hk hk'; rewrite [X in _ <= X](_ : _ = 0) => [h|]; last first.
  rewrite sum_idxE big1_seq // => i /andP[_ /mem_all_idx hi]; by rewrite G1 // subrr expr0n.
have : \sum_(s <- nth [::] r.2 k) s ^+ 2 = 0.
  by apply/eqP; rewrite eq_le h sumr_ge0 // => s' _; exact: sqr_ge0.
move/eqP; rewrite psumr_eq0 => [/allP/(_ _ hs)|s' _]; last exact: sqr_ge0.
by rewrite /= sqrf_eq0 => /eqP.
Qed.
Print Assumptions C14_bondwise_optimal.
Print Assumptions C14_quasi_optimal.
Print Assumptions C14_quasi_optimal_tt.
Print Assumptions C14_exact_rank.
Print Assumptions C14_default_exact.

(* non-vacuity: rounding a 2 x 3 x 2 train of ranks (2, 3) to ranks (1, 2), compared with an
   explicit train of ranks (1, 2), with the routines of LinExist.v *)
From Verif Require Import LinExist Prop_LinEx.
Definition ex_ds (R : rcfType) : seq (nd R) :=
  [:: tab [:: 1; 2; 1]%N (fun i => (nth 0 i 1 + 1)%:R); tab [:: 1; 3; 2]%N (fun i => (nth 0 i 1 * nth 0 i 2)%:R);
      tab [:: 2; 2; 1]%N (fun i => (2 + nth 0 i 0 * nth 0 i 1)%:R)]%N.
Example C14_quasi_optimal_nonvacuous (R : rcfType) :
  or_linalg (tt_round (@qr0 R) (@svd0 R) (ex_cs R) None (Some (RTuple [:: 1; 2]%N)) false) (fun out =>
    exists a b c, [/\ to_numpy (TT (ex_cs R)) = Ok a, to_numpy (TT out) = Ok b, to_numpy (TT (ex_ds R)) = Ok c &
      sum_idx (nshape a) (fun i => (get a i - get b i) ^+ 2)
      <= 2%:R * sum_idx (nshape a) (fun i => (get a i - get c i) ^+ 2)]).
Proof.
have [qP sP ra _] := C13_C14_nonvacuous R.
have h1 : process_tt_rank (RTuple [:: 1; 2]%N) (tshape (TT (ex_cs R))) false = Ok [:: 1; 2]%N by [].
have h3 : wf (TT (ex_ds R)) by [].
have h4 : tshape (TT (ex_ds R)) = tshape (TT (ex_cs R)) by [].
have h5 k : (nth 0 (tt_rank (ex_ds R)) k <= nth 0 [:: 1; 2] k)%N by case: k => [|[|k]].
have := C14_quasi_optimal_tt qP sP ra (or_introl erefl) h1 isT h3 h4 h5.
by rewrite (_ : (size (ex_cs R)).-1 = 2%N).
Qed.
