(* Property C60: the experiment functions of scripts/experiment_base.py report the relative
   error of the approximation that the library call gives for the same arguments, recompressed
   to the requested rank; their assertion never fails for positive ranks. *)
From Coq Require Import String Ascii NArith.
From mathcomp Require Import all_ssreflect all_algebra.
From mathcomp Require Import zify.
From Verif Require Import Py Nd NdThy Ein Utils Tensor Hash Sketch Spec LinSpec ChainThy TensorThy TensorThy2 TensorThy4 TrimThy SweepThy DotThy TensorNum NormThy ErrThy RoundThy RoundThy2 SkSpec SkThy1 SkThy10 SkThy12 SkThy13 SkThy14 RecSpec RecThy1 RecThy2 RecThy3 RecThy4 RecThy5 RecThy6 RecThy7 Prop_Sketch Prop_Recovery Prop_Orth Prop_Num Prop_TtSvd Prop_Opt Mixed MixedSpec MixedThy Drivers.
Set Implicit Arguments. Unset Strict Implicit. Unset Printing Implicit Defensive.
Import GRing.Theory Num.Theory Order.TTheory.
Local Open Scope ring_scope.

(* |b - a| / |a|; None if a is zero *)
Definition frob (R : rcfType) (s : seq nat) (x : seq nat -> R) : R := Num.sqrt (sum_idx s (fun i => x i ^+ 2)).
Definition relative_error (R : rcfType) (b a : nd R) : option R :=
  let n := frob (nshape a) (get a) in
  if n == 0 then None else Some (frob (nshape a) (fun i => get b i - get a i) / n).

Section Theorems.
Variable R : rcfType.
Variable to_normal : N -> R.
Variable tt_random : seq nat -> seq nat -> N -> seq (nd R).
Variable stream : N -> nat -> R.
Variable offset : N -> nat -> N.
Variable right_seed_of : N -> nat -> N.
Variable lstsq : nd R -> nd R -> res (nd R).
Variable qr_econ qr : nd R -> res (nd R * nd R).
Variable svd svd_red : nd R -> res (nd R * nd R * nd R).
Variable fuel : nat.
Hypothesis lstsq_ok : lstsq_contract lstsq.
Hypothesis qr_econ_ok : qr_contract qr_econ.
Hypothesis qrP : qr_contract qr.
Hypothesis svdP : svd_contract svd.
Hypothesis svd_redP : svd_red_contract svd_red.
Hypothesis randP : tt_random_ok tt_random.
Notation stream_sketch := (stream_sketch to_normal tt_random stream offset right_seed_of lstsq qr_econ).
Notation orthogonal_sketch := (orthogonal_sketch to_normal tt_random stream offset right_seed_of lstsq qr_econ).
Notation hmt_sketch := (hmt_sketch to_normal tt_random stream offset lstsq qr_econ).
Notation to_tt := (stt_to_tt lstsq).
Notation report := (report lstsq qr fuel).
Notation recompress := (recompress qr svd).
Notation run_stream := (experiment_stream_sketch to_normal tt_random stream offset right_seed_of lstsq qr_econ qr svd fuel).
Notation run_orthogonal := (experiment_orthogonal_sketch to_normal tt_random stream offset right_seed_of lstsq qr_econ qr svd fuel).
Notation run_hmt := (experiment_hmt_sketch to_normal tt_random stream offset lstsq qr_econ qr svd fuel).
Notation run_svd := (experiment_tt_svd lstsq qr svd_red fuel).
Notation run_round := (experiment_tt_round lstsq qr svd fuel).
Implicit Types (X Y : tensor R) (a b : nd R) (cs : seq (nd R)).

(* an input of a script: any tensor of the library with at least two modes and no empty ones,
   a train has positive ranks; the recursion limit is large enough for its nesting *)
Definition good_input X a : Prop :=
  [/\ wf X, to_numpy X = Ok a, all (fun n => 0 < n)%N (tshape X) /\ (1 < size (tshape X))%N,
      is_true (if X is TT cs then pos_tt cs else true) & (nesting (input X) + nesting (input X) + 6 < fuel)%N].

Lemma stands_input X : stands_for lstsq (input X) X.
Proof.
elim/tensor_ind': X => //= s Xs IH; split=> //; elim: Xs IH => [|x Xs IHl] IH //=; split.
  by apply: IH; left.
by apply: IHl => y hy; apply: IH; right.
Qed.

(* what the functions report for a given approximation *)
Definition reports (T : any R) a (e : option R) : Prop :=
  exists b, [/\ a_to_numpy lstsq T = Ok b, nshape b = nshape a & e = relative_error b a].

Lemma reportP X a T cs : good_input X a -> stands_for lstsq T (TT cs) -> nesting T = 0%N ->
  wf_tt cs -> pos_tt cs -> tshape (TT cs) = tshape X ->
  or_linalg (report None T (input X)) (reports T a).
Proof.
move=> [w ea [sp s2] pX hf] hT nT wc pc sc.
have s0 : (0 < size (tshape (TT cs)))%N by rewrite sc; apply: ltn_trans s2.
have [b eb [wb sb gb]] := to_numpyE (wc : wf (TT cs)); have [a' ea' [wa sa ga]] := to_numpyE w.
have [Ea] : Ok a' = Ok a := etrans (esym ea') ea; rewrite Ea in wa sa ga.
have := a_errorP (n := fuel) (fast := false) qrP true false hT (stands_input X) wc w sc s0.
rewrite nT /= => /(_ _ pc pX) H; apply: or_imp (H _ _ _) _ => //.
- by move: hf; clear; lia.
- by move: s2; rewrite -sc; case: (X).
move=> e ->; exists b; rewrite (a_to_numpyE hT) eb; split=> //; first by rewrite sb sa.
by rewrite /expected /relative_error /frob (sqnorm_obs w ea) (sqdist_obs (wc : wf (TT cs)) w sc eb ea) sb sc sa.
Qed.

(* ---- recompression ---- *)
(* [out] is [cs] rounded to ranks at most m, or cs itself *)
Definition recompressed cs (m : option nat) out : Prop :=
  if m is Some m' then tt_round qr svd cs None (Some (RInt m')) false = Ok out /\ all (fun k => k <= m')%N (tt_rank out)
  else out = cs.

Lemma recompressP cs m (s := tshape (TT cs)) : wf_tt cs -> pos_tt cs -> (0 < size s)%N ->
  (if m is Some m' then 0 < m' else true)%N ->
  or_linalg (recompress cs m) (fun out => [/\ recompressed cs m out, wf_tt out, pos_tt out & tshape (TT out) = s]).
Proof.
move=> w p s0; case: m => [m|] //= m0.
have /andP[sp rp] : all (fun n => 0 < n)%N s && all (fun n => 0 < n)%N (tt_rank cs) by rewrite -(pos_ttE w).
have [rk E] : exists rk, process_tt_rank (RInt m) s true = Ok rk by rewrite /process_tt_rank eqn0Ngt s0 size_nseq eqxx; eexists.
have ra : round_args cs (Some (RInt m)) false by split=> //; exists rk.
have rkm k : (k < (size s).-1)%N -> (nth 0%N rk k <= m)%N.
  move=> hk; move: E; rewrite /process_tt_rank eqn0Ngt s0 size_nseq eqxx /= => -[<-].
  have [_ h] := trim_le sp s0 (size_nseq _ m); by apply: leq_trans (h k) _; rewrite nth_nseq hk.
have := C13_round None qrP svdP ra E; case e: (tt_round _ _ _ _ _ _) => [out|] //= [wo so _ ho].
have {}so : tshape (TT out) = s := so.
have sz : size (tt_rank out) = (size s).-1 by rewrite -so /= /tt_rank !size_map size_behead.
have szc : (size cs).-1 = (size s).-1 by rewrite /s /= size_map.
split=> //.
- split=> //; apply/(all_nthP 0%N) => k; rewrite sz => hk; rewrite szc in ho; have /andP[_ h] := ho k hk.
  by apply: leq_trans h _; rewrite geq_max m0 rkm.
- rewrite (pos_ttE wo) so sp /=; apply/(all_nthP 0%N) => k; rewrite sz => hk; rewrite szc in ho.
  by have /andP[] := ho k hk.
Qed.

Lemma max_rankP out m : (1 < size (tshape (TT out : tensor R)))%N -> all (fun k => k <= m)%N (tt_rank out) ->
  exists2 k, max_rank out = Ok k & (k <= m)%N.
Proof.
have sz : size (tt_rank out) = (size (tshape (TT out : tensor R))).-1 by rewrite /= /tt_rank !size_map size_behead.
rewrite /max_rank; case: (tt_rank out) sz => [|r rs] /=; first by case: (size _) => [|[]].
move=> _ _ /andP[h1 h2]; exists (foldl maxn r rs) => //.
by elim: rs r h1 h2 => [|x rs IH] r h1 //= /andP[h2 h3]; apply: IH => //; rewrite geq_max h1.
Qed.

(* ---- stream_sketch ---- *)
Section Stream.
Variables (X : tensor R) (a : nd R) (l r : ttrank) (lk rk : seq nat) (ent : nat -> N) (lbig : bool).
Let s := tshape X. Let d := size s.
Hypothesis gX : good_input X a.
Hypothesis rX : right_ok X.
Hypothesis pl : process_tt_rank l s false = Ok lk.
Hypothesis pr : process_tt_rank r s false = Ok rk.
Hypothesis hl : all (fun n => 0 < n)%N lk.
Hypothesis hr : all (fun n => 0 < n)%N rk.
Hypothesis hb : forall mu, (mu < d.-1)%N -> if lbig then (nth 0 rk mu < nth 0 lk mu)%N else (nth 0 lk mu < nth 0 rk mu)%N.

Lemma stream_tt : exists2 st, stream_sketch X l r None None None None None ent = Ok st &
  stt_shape st = s /\ or_linalg (to_tt st) (fun cs => [/\ wf_tt cs, pos_tt cs & tshape (TT cs) = s]).
Proof.
have [w ea [hs d1] _ _] := gX.
have [st es [mD mE cD cE hsk]] := C21_stream_sketch_default to_normal stream offset right_seed_of lstsq qr_econ None ent randP w ea rX d1 hs pl pr hl hr hb.
exists st => //; have s0 : (0 < size s)%N by apply: ltn_trans d1.
have [[gD sD tD rD] slk] := made_good randP mD; have [[gE sE tE rE] srk] := made_good randP mE.
have [_ slk0] := SkThy9.process_size pl erefl; have [_ srk0] := SkThy9.process_size pr erefl.
have pt (b : bool) (k : seq nat) : size k = d.-1 -> all (fun n => 0 < n)%N k -> all (fun n => 0 < n)%N (trim_if b s k).
  by move=> sk hk; rewrite /trim_if; case: b => //; have [h1 h2 _ _] := trim_bounds hs hk s0 sk.
have hgs : general_sketch to_normal lstsq qr_econ X (Some (left_drm st)) (right_drm st) Streaming = Ok (sketch_ st).
  move: es; rewrite /Sketch.stream_sketch; do 2 (case: (rank_gt _ _) => //= ?); case: ifP => // _.
  by case: (make_drms _ _ _ _ _ _ _ _ _ _ _ _ _ _ _) => //= p; case e : (general_sketch _ _ _ _ _ _ _) => [c|] //= [<-].
have pD : all (fun n => 0 < n)%N (d_rank (left_drm st)) by rewrite rD; apply: pt.
have pE : all (fun n => 0 < n)%N (d_rank (right_drm st)) by rewrite rE /SkThy9.flip all_rev; apply: pt.
have hp : pair_ok (left_drm st) (right_drm st) s by [].
have fD : fits (left_drm st) d.-1 X by apply: (fits_tt randP X mD cD); apply: pt.
have fE : fits (right_drm st) d.-1 X by apply: (fits_tt randP X mE cE); apply: pt.
have [sh _ _] := mk_ranks hsk (gs_mk hgs) s0.
split; first by rewrite /stt_shape sh.
have := @C27_to_tt R to_normal lstsq qr_econ lstsq_ok true X _ _ (sketch_ st) Auto (wf_gen_rep w) d1 hp fD fE rX hs pD pE hgs.
rewrite -/(stt_to_tt lstsq st); case e: (stt_to_tt lstsq st) => [cs|] //= [wc sc rc].
split=> //; rewrite (pos_ttE wc) [tshape _]/= sc rc hs /=; case: ifP => _ //; by rewrite all_rev.
Qed.

Theorem C60_stream m : (if m is Some m' then 0 < m' else true)%N ->
  or_linalg (run_stream X l r None None None m ent) (fun e =>
    exists st cs, [/\ stream_sketch X l r None None None None None ent = Ok st, to_tt st = Ok cs &
      exists2 out, recompressed cs m out & reports (ALeaf (TT out)) a e]).
Proof.
move=> m0; have [w ea [hs d1] _ _] := gX.
rewrite /experiment_stream_sketch; have [st es [sh]] := stream_tt; rewrite es [bind (Ok _) _]/=.
case: m m0 => [m|] m0 /=.
  case e: (to_tt st) => [cs|] //= [wc pc sc0]; have sc : tshape (TT cs) = s := sc0.
  have s0 : (0 < size (tshape (TT cs)))%N by rewrite sc; apply: ltn_trans d1.
  have := recompressP (m := Some m) wc pc s0 m0; rewrite /=.
  case e2: (tt_round _ _ _ _ _ _) => [out|] //= [rc wo po so0]; have [_ hm] := rc; have so : tshape (TT out) = tshape (TT cs) := so0.
  have [k -> hk] : exists2 k, max_rank out = Ok k & (k <= m)%N by apply: max_rankP => //; rewrite so sc.
  rewrite /= hk; apply: or_imp (reportP gX _ _ wo po _) _ => //; first by rewrite so sc.
  by move=> x hx; exists st, cs; split=> //; exists out.
case e: (to_tt st) => [cs|er] /=; last first.
  move=> he; have [_ _ _ pX hf] := gX.
  rewrite /a_error /a_tensor_error; apply: or_bind (a_normP qrP (stands_input X) w _ hf _) _ => //.
  - by apply: ltn_trans d1.
  - by case: (X) pX.
  by move=> v _; rewrite /= e /= he.
move=> [wc pc sc0]; have sc : tshape (TT cs) = s := sc0; apply: or_imp (reportP gX (T := ASk st) _ _ wc pc sc) _ => //.
  by exists cs => //; rewrite sh sc.
move=> x [b [h1 h2 h3]]; exists st, cs; split=> //; exists cs => //; exists b; split=> //.
by move: h1; rewrite /= e.
Qed.

(* recompression_rank=0 rounds to rank 1 and fails the assertion *)
Theorem C60_stream_zero :
  run_stream X l r None None None (Some 0%N) ent = Err AssertionError \/
  run_stream X l r None None None (Some 0%N) ent = Err LinAlgError.
Proof.
have [w ea [hs d1] _ _] := gX.
rewrite /experiment_stream_sketch; have [st es [sh]] := stream_tt; rewrite es [bind (Ok _) _]/=.
case e: (to_tt st) => [cs|er] /=; last by move=> ->; right.
move=> [wc pc sc0]; have sc : tshape (TT cs) = s := sc0.
have s0 : (0 < size (tshape (TT cs)))%N by rewrite sc; apply: ltn_trans d1.
have [rk0 E] : exists rk0, process_tt_rank (RInt 0) (tshape (TT cs)) true = Ok rk0.
  by rewrite /process_tt_rank eqn0Ngt s0 size_nseq eqxx; eexists.
have ra : round_args cs (Some (RInt 0)) false by split=> //; exists rk0.
have := C13_round None qrP svdP ra E; case e2: (tt_round _ _ _ _ _ _) => [out|er] /=; last by move=> ->; right.
move=> [wo so _ ho]; left.
have sz : size (tt_rank out) = (size cs).-1.
  have -> : size cs = size (tshape (TT cs)) by rewrite /= size_map.
  have {}so : tshape (TT out) = tshape (TT cs) := so.
  by rewrite -so /= /tt_rank !size_map size_behead.
have c1 : (0 < (size cs).-1)%N.
  by move: d1; rewrite -/s -sc /= size_map; case: (size cs) => [|[]].
have := ho 0%N c1; rewrite /max_rank; case: (tt_rank out) sz => [|k ks] /= sz; first by rewrite -sz in c1.
case/andP=> k0 _; have {}k0 : (0 < foldl maxn k ks)%N.
  by elim: ks k k0 {sz} => [|x ks IH] k k0 //=; apply: IH; rewrite leq_max k0.
by rewrite leqNgt k0.
Qed.
End Stream.

(* ---- orthogonal_sketch and hmt_sketch; without recompression the error is at most 1 ---- *)
Lemma at_most_one (a b : nd R) : nshape b = nshape a ->
  sum_idx (nshape a) (fun i => (get a i - get b i) ^+ 2)
    = sum_idx (nshape a) (fun i => get a i ^+ 2) - sum_idx (nshape a) (fun i => get b i ^+ 2) ->
  forall e, relative_error b a = Some e -> e <= 1.
Proof.
move=> sb H e; rewrite /relative_error; case: ifP => // n0 [<-].
have np : 0 < frob (nshape a) (get a) by rewrite lt_def n0 sqrtr_ge0.
rewrite ler_pdivr_mulr // mul1r; apply: ler_wsqrtr.
rewrite (_ : sum_idx _ _ = sum_idx (nshape a) (fun i => (get a i - get b i) ^+ 2)); last first.
  by apply: eq_sum_idx => i _; rewrite -sqrrN opprB.
by rewrite H ler_subl_addr ler_addl sum_idx_ge0 // => i; rewrite sqr_ge0.
Qed.

Theorem C60_orthogonal X a l r lk rk ent m : let s := tshape X in let d := size s in
  good_input X a -> right_ok X -> (d <= 102)%N ->
  process_tt_rank l s false = Ok lk -> process_tt_rank r s false = Ok rk ->
  all (fun n => 0 < n)%N lk -> all (fun n => 0 < n)%N rk ->
  (forall mu, (mu < d.-1)%N -> (nth 0 lk mu < nth 0 rk mu)%N) ->
  (if m is Some m' then 0 < m' else true)%N ->
  or_linalg (run_orthogonal X l r None None None m ent) (fun e =>
    exists2 cs, orthogonal_sketch X l r None None None None None ent = Ok cs &
    exists2 out, recompressed cs m out & reports (ALeaf (TT out)) a e /\
      (m = None -> forall x, e = Some x -> x <= 1)).
Proof.
move=> s d gX rX d102 pl pr hl hr hb m0; have [w ea [hs d1] _ _] := gX.
have d12 : (1 < d <= 102)%N by rewrite d1.
have [D [E [c0 [_ _ _ + _]]]] := C29_orthogonal_sketch_default to_normal stream offset right_seed_of lstsq_ok qr_econ_ok None ent randP w ea rX d12 hs pl pr hl hr hb.
rewrite /experiment_orthogonal_sketch; case e: (orthogonal_sketch _ _ _ _ _ _ _ _ _) => [cs|] //= [wc sc0 rc _ [y ey [T [_ Ht _]]]].
have sc : tshape (TT cs) = s := sc0.
have [_ slk] := SkThy9.process_size pl erefl; have s0 : (0 < size s)%N by apply: ltn_trans d1.
have [_ pk _] := trim_left_fits hs hl s0 slk d102.
have pc : pos_tt cs by rewrite (pos_ttE wc) sc hs rc.
have s0c : (0 < size (tshape (TT cs)))%N by rewrite sc.
apply: or_bind (recompressP wc pc s0c m0) _ => out [rcm wo po so].
apply: (or_imp (x := report None (ALeaf (TT out)) (input X)) (reportP gX _ _ wo po _)) => //; first by rewrite so sc.
move=> x [b [h1 h2 h3]]; exists cs => //; exists out => //; split; first by exists b.
move=> em; have {}h1 : to_numpy (TT out) = Ok b := h1; rewrite h3; apply: at_most_one => //.
move: rcm h1; rewrite em [recompressed _ _ _]/= => ->; have {}ey : to_numpy (TT cs) = Ok y := ey; rewrite ey => -[<-].
by have [a' ea' [_ sa _]] := to_numpyE w; have [Ea] : Ok a' = Ok a := etrans (esym ea') ea; rewrite -Ea sa Ea.
Qed.

Theorem C60_hmt X a rank rk ent m : let s := tshape X in let d := size s in
  good_input X a -> right_ok X -> (d <= 102)%N ->
  process_tt_rank rank s false = Ok rk -> all (fun n => 0 < n)%N rk ->
  (if m is Some m' then 0 < m' else true)%N ->
  or_linalg (run_hmt X rank None None m ent) (fun e =>
    exists2 cs, hmt_sketch X rank None None None false ent = Ok cs &
    exists2 out, recompressed cs m out & reports (ALeaf (TT out)) a e /\
      (m = None -> forall x, e = Some x -> x <= 1)).
Proof.
move=> s d gX rX d102 pr hr m0; have [w ea [hs d1] _ _] := gX.
have d12 : (1 < d <= 102)%N by rewrite d1.
have [E _ [+ _]] := C30_hmt_sketch_default to_normal stream offset lstsq qr_econ_ok None ent randP w ea rX d12 hs pr hr.
rewrite /experiment_hmt_sketch; case e: (hmt_sketch _ _ _ _ _ _ _) => [cs|] //= [wc sc0 rc _ [y ey [T [_ Ht _]]]].
have sc : tshape (TT cs) = s := sc0.
have [_ slk] := SkThy9.process_size pr erefl; have s0 : (0 < size s)%N by apply: ltn_trans d1.
have [_ pk _] := trim_left_fits hs hr s0 slk d102.
have pc : pos_tt cs by rewrite (pos_ttE wc) sc hs rc.
have s0c : (0 < size (tshape (TT cs)))%N by rewrite sc.
apply: or_bind (recompressP wc pc s0c m0) _ => out [rcm wo po so].
apply: (or_imp (x := report None (ALeaf (TT out)) (input X)) (reportP gX _ _ wo po _)) => //; first by rewrite so sc.
move=> x [b [h1 h2 h3]]; exists cs => //; exists out => //; split; first by exists b.
move=> em; have {}h1 : to_numpy (TT out) = Ok b := h1; rewrite h3; apply: at_most_one => //.
move: rcm h1; rewrite em [recompressed _ _ _]/= => ->; have {}ey : to_numpy (TT cs) = Ok y := ey; rewrite ey => -[<-].
by have [a' ea' [_ sa _]] := to_numpyE w; have [Ea] : Ok a' = Ok a := etrans (esym ea') ea; rewrite -Ea sa Ea.
Qed.

(* ---- tt_svd and round: the reported error is at most sqrt(d-1) times the relative error of
   any approximation y with the requested ranks ---- *)
Definition near_best a (rk : seq nat) (e : option R) : Prop :=
  forall y : seq nat -> R, (forall k, (k < (size (nshape a)).-1)%N -> (\rank (unfolding (nshape a) y k) <= nth 0 rk k)%N) ->
  forall x, e = Some x ->
    x <= Num.sqrt (size (nshape a)).-1%:R * (frob (nshape a) (fun i => y i - get a i) / frob (nshape a) (get a)).

Lemma near_bestP a b rk e : (forall y : seq nat -> R,
      (forall k, (k < (size (nshape a)).-1)%N -> (\rank (unfolding (nshape a) y k) <= nth 0 rk k)%N) ->
      sum_idx (nshape a) (fun i => (get a i - get b i) ^+ 2)
      <= (size (nshape a)).-1%:R * sum_idx (nshape a) (fun i => (get a i - y i) ^+ 2)) ->
  e = relative_error b a -> near_best a rk e.
Proof.
move=> H -> y hy x; rewrite /relative_error; case: ifP => // n0 [<-].
rewrite mulrA ler_wpmul2r ?invr_ge0 ?sqrtr_ge0 // /frob -sqrtrM ?ler0n //; apply: ler_wsqrtr.
have sw (z : seq nat -> R) : sum_idx (nshape a) (fun i => (z i - get a i) ^+ 2) = sum_idx (nshape a) (fun i => (get a i - z i) ^+ 2).
  by apply: eq_sum_idx => i _; rewrite -sqrrN opprB.
by rewrite !sw; apply: H.
Qed.

Theorem C60_tt_svd X a rank rk : good_input X a ->
  process_tt_rank rank (tshape X) false = Ok rk -> all (fun n => 0 < n)%N rk ->
  or_linalg (run_svd X (Some rank) None) (fun e =>
    exists2 cs, tt_svd svd_red X (Some rank) = Ok cs &
      reports (ALeaf (TT cs)) a e /\ near_best a rk e).
Proof.
move=> gX pr hr; have [w ea [hs d1] _ _] := gX.
have := C20_shape_and_ranks (rank := Some rank) svd_redP w d1 hs (process_trimE true pr).
have := C20_quasi_optimal svd_redP w d1 hs pr hr.
rewrite /experiment_tt_svd; case e: (tt_svd _ _ _) => [cs|] //= [a' [b [ea' eb sb H]]] [wc sc0 _ hk].
have [Ea] : Ok a' = Ok a := etrans (esym ea') ea; rewrite {}Ea in sb H.
have sc : tshape (TT cs) = tshape X := sc0.
have pc : pos_tt cs.
  rewrite (pos_ttE wc) sc hs /=; apply/(all_nthP 0%N) => k.
  have -> : size (tt_rank cs) = (size (tshape X)).-1 by rewrite -sc /= /tt_rank !size_map size_behead.
  by move=> /hk/andP[].
apply: (or_imp (x := report None (ALeaf (TT cs)) (input X)) (reportP gX _ _ wc pc sc)) => // x [b' [h1 h2 h3]]; exists cs => //; split; first by exists b'.
have {}h1 : to_numpy (TT cs) = Ok b' := h1; apply: near_bestP h3.
by have [<-] : Ok b = Ok b' := etrans (esym eb) h1.
Qed.

Theorem C60_tt_round cs a rank rk : good_input (TT cs) a ->
  process_tt_rank rank (tshape (TT cs : tensor R)) false = Ok rk -> all (fun n => 0 < n)%N rk ->
  or_linalg (run_round (TT cs) (Some rank) None) (fun e =>
    exists2 out, tt_round qr svd cs None (Some rank) false = Ok out &
      reports (ALeaf (TT out)) a e /\ near_best a rk e).
Proof.
move=> gX pr hr; have [w ea [hs d1] pc _] := gX.
have E := process_trimE true pr.
have ra : round_args cs (Some rank) false by split=> //; eexists; exact: E.
have := C14_quasi_optimal qrP svdP ra (or_introl erefl) pr hr; have := C13_round None qrP svdP ra E.
rewrite /experiment_tt_round; case e: (tt_round _ _ _ _ _ _) => [out|] //= [wo so0 _ hk] [a' [b [ea' eb sb H]]].
have [Ea] : Ok a' = Ok a := etrans (esym ea') ea; rewrite {}Ea in sb H.
have so : tshape (TT out) = tshape (TT cs) := so0.
have po : pos_tt out.
  rewrite (pos_ttE wo) so hs /=; apply/(all_nthP 0%N) => k.
  have -> : size (tt_rank out) = (size cs).-1.
    by have := congr1 size so; rewrite /= /tt_rank !size_map size_behead => ->.
  by move=> /hk/andP[].
apply: (or_imp (x := report None (ALeaf (TT out)) (input (TT cs))) (reportP gX _ _ wo po so)) => // x [b' [h1 h2 h3]]; exists out => //; split; first by exists b'.
have {}h1 : to_numpy (TT out) = Ok b' := h1; apply: near_bestP h3.
have [a1 ea1 [_ sa1 _]] := to_numpyE (w : wf (TT cs)); have [E1] : Ok a1 = Ok a := etrans (esym ea1) ea.
have sz : size (nshape a) = size cs by rewrite -E1 sa1 /= size_map.
by have [<-] : Ok b = Ok b' := etrans (esym eb) h1; rewrite sz.
Qed.

(* other inputs have no round method *)
Theorem C60_tt_round_refuted X rank f : (if X is TT _ then false else true) ->
  run_round X rank f = Err AttributeError.
Proof. by case: X. Qed.

(* ---- tt_error_func of the scaling scripts: for a sketch or a train and a train; infinite for
   the zero train, also when the absolute error is asked for ---- *)
Theorem C60_tt_error_func T cs cs2 a relative : stands_for lstsq T (TT cs) -> nesting T = 0%N ->
  wf_tt cs -> pos_tt cs -> good_input (TT cs2) a -> tshape (TT cs : tensor R) = tshape (TT cs2 : tensor R) ->
  exists2 b, a_to_numpy lstsq T = Ok b &
  or_linalg (tt_error_func lstsq qr T (input (TT cs2)) relative) (fun e =>
    e = if frob (nshape a) (get a) == 0 then None
        else if relative then relative_error b a
        else Some (frob (nshape a) (fun i => get b i - get a i))).
Proof.
move=> hT nT wc pc [w ea [hs d1] p2 _] sc.
have {}p2 : pos_tt cs2 := p2; have {}w : wf_tt cs2 := w.
have [b eb [wb sb gb]] := to_numpyE (wc : wf (TT cs)); exists b; first by rewrite (a_to_numpyE hT).
have ec : match T with ASk st => to_tt st | ALeaf (TT cs) => Ok cs | _ => Err AttributeError end = Ok cs.
  by case: T hT nT => [U /= [-> _]|st /= [cs' -> [_ [->]]]|s Ts] //; case: (TT cs).
rewrite /tt_error_func ec /=.
have [a' ea' [wa sa ga]] := to_numpyE (w : wf (TT cs2)).
have [Ea] : Ok a' = Ok a := etrans (esym ea') ea; rewrite Ea in wa sa ga.
have s0 : (0 < size (tshape (TT cs2 : tensor R)))%N by apply: ltn_trans d1.
have s2 : (2 <= size cs)%N by move: d1; rewrite -sc /= size_map.
have hE := tt_errorP qrP false false wc w s2 sc pc p2.
apply: or_bind (tt_normP qrP w p2) _ => n2 ->.
have -> : Num.sqrt (sqnorm_of (TT cs2)) = frob (nshape a) (get a) by rewrite (sqnorm_obs (w : wf (TT cs2)) ea).
case: ifP => n0 //; move: hE; rewrite /tt_error.
have -> : Num.sqrt (sqdist (TT cs) (TT cs2)) = frob (nshape a) (fun i => get b i - get a i).
  by rewrite (sqdist_obs (wc : wf (TT cs)) (w : wf (TT cs2)) sc eb ea) sb sc sa.
case: (tneg _) => [[] //= ncs|//]; case: (tt_add _ _) => [s|] //=; case: (tt_norm _ _) => [v|] //=.
by rewrite /relative_error n0 /expected /= => -[->]; case: relative.
Qed.
End Theorems.

Print Assumptions C60_stream.
Print Assumptions C60_stream_zero.
Print Assumptions C60_orthogonal.
Print Assumptions C60_hmt.
Print Assumptions C60_tt_svd.
Print Assumptions C60_tt_round.
Print Assumptions C60_tt_round_refuted.
Print Assumptions C60_tt_error_func.

(* Non-vacuity: over every real closed field, with the routines of LinExist.v and a generator of
   random trains that returns ones, the hypotheses hold for the 2 x 3 x 2 train of Prop_LinEx.v,
   left ranks (1, 1), right ranks (2, 2). *)
From Verif Require Import LinExist NoLinSpec NoLin Prop_LinEx Prop_Total.
Section Ex.
Variable R : rcfType.
Definition ones_train (shape rank : seq nat) (seed : N) : seq (nd R) :=
  let rs := (1%N :: rank) ++ [:: 1%N] in
  mkseq (fun k => tab [:: nth 1 rs k; nth 0 shape k; nth 1 rs k.+1]%N (fun _ => 1)) (size shape).
Example ones_train_ok : tt_random_ok ones_train.
Proof.
move=> shape rank seed s0 sr cs.
have szc : size cs = size shape by rewrite size_mkseq.
split.
- rewrite /cs /ones_train; set rs := _ ++ _.
  have H n k : (k + n = size shape)%N -> links (nth 1%N rs k) [seq tab [:: nth 1 rs j; nth 0 shape j; nth 1 rs j.+1]%N (fun _ => 1 : R) | j <- iota k n] 1.
    elim: n k => [|n IH] k e /=.
      by rewrite -e addn0 in sr s0; rewrite /rs nth_cat /= sr prednK // ltnn subnn.
    by rewrite nwf_tab eqxx /=; apply: IH; rewrite addSnnS.
  exact: (H (size shape) 0%N).
- apply: (@eq_from_nth _ 0%N); rewrite size_map szc // => k hk.
  by rewrite (nth_map (Nd [::] [::])) ?szc // nth_mkseq.
apply: (@eq_from_nth _ 0%N); first by rewrite size_map size_takel szc ?leq_pred // sr.
rewrite size_map size_takel szc ?leq_pred // => k hk.
have hk' : (k < size shape)%N by apply: leq_trans hk (leq_pred _).
rewrite (nth_map (Nd [::] [::])) ?size_takel ?szc ?leq_pred // nth_take // nth_mkseq // /dim /=.
by rewrite nth_cat sr hk (set_nth_default 0%N) // sr.
Qed.

Example C60_nonvacuous : exists a, good_input 7 (TT (ex_cs R)) a /\ right_ok (TT (ex_cs R)) /\
  process_tt_rank (RInt 1) (tshape (TT (ex_cs R))) false = Ok [:: 1; 1]%N /\
  process_tt_rank (RInt 2) (tshape (TT (ex_cs R))) false = Ok [:: 2; 2]%N.
Proof.
have w : wf (TT (ex_cs R)) by [].
have [a ea _] := to_numpyE w; by exists a; split; [split|].
Qed.

(* and the function with TT-rounding returns a value *)
Example C60_round_runs : exists e, experiment_tt_round (@lstsq0 R) (@qr0 R) (@svd0 R) 7 (TT (ex_cs R)) (Some (RInt 1)) None = Ok e.
Proof.
have [a [g [_ [p _]]]] := C60_nonvacuous.
have [qc _] := @qr0P R.
have h := C60_tt_round (@lstsq0 R) qc (@svd0P R) g p isT.
have n : nolin (experiment_tt_round (@lstsq0 R) (@qr0 R) (@svd0 R) 7 (TT (ex_cs R)) (Some (RInt 1)) None).
  move: (ex_cs R) => cs; rewrite /experiment_tt_round; apply: nl_bind => [|out].
    by apply: nl_tt_round => *; [exact: nl_qr0|exact: nl_svd0].
  by rewrite /report /a_error /input; apply: nl_tt_error => *; exact: nl_qr0.
case: (or_total n h) => e he _; exists e; exact: he.
Qed.
End Ex.
