(* A whole run of tt_sum_gmres. *)
From Coq Require Import String Ascii NArith.
From mathcomp Require Import all_ssreflect all_algebra.
From mathcomp Require Import zify.
From Verif Require Import Py Nd Utils Tensor TensorNum Sketch Mpo Gmres Spec LinSpec RecSpec RoundSpec SkSpec MpoSpec GmresSpec ArnSpec.
From Verif Require Import NdThy Ein MatThy TensorThy TensorThy2 TensorThy3 ChainThy DotThy NormThy SweepThy RoundThy RoundThy2 TrimThy SkThy1 SkThy2 SkThy10 SkThy14
  RecThy3 PrecThy Prop_Mpo Prop_Prec GmresThy1 RoundSumThy Prop_Num Prop_Orth Prop_RoundSum GmresThy2 GmresMath ArnThy ArnThy2 GmresThy3 GmRunSpec GmresThy4 GatherThy.
Set Implicit Arguments. Unset Strict Implicit. Unset Printing Implicit Defensive.
Import GRing.Theory Num.Theory Order.POrderTheory.
Local Open Scope ring_scope.

Section G.
Variable R : rcfType.
Notation arr := (nd R).
Notation tensor := (tensor R).
Notation allpos := (all (fun n => 0 < n)%N).
Variables (qr : arr -> res (arr * arr)) (svd : arr -> res (arr * arr * arr)).
Variable to_normal : N -> R.
Variable tt_random : seq nat -> seq nat -> N -> seq arr.
Variable stream : N -> nat -> R.
Variable offset : N -> nat -> N.
Variable right_seed_of : N -> nat -> N.
Variable lstsq : arr -> arr -> res arr.
Variable qr_econ : arr -> res (arr * arr).
Variables (solve_tri : arr -> arr -> res arr) (np_lstsq : arr -> arr -> res (arr * seq R)).
Variable ent : nat -> nat -> N.
Hypotheses (qrP : qr_tri_contract qr) (svdP : svd_contract svd) (solP : solve_tri_contract solve_tri) (nplP : np_lstsq_contract np_lstsq).
Hypotheses (lstsqP : lstsq_contract lstsq) (qr_econP : qr_contract qr_econ) (rndP : tt_random_ok tt_random).
Notation round_call := (round_call qr svd to_normal tt_random stream offset right_seed_of lstsq qr_econ ent).



Lemma pos_train_good s (cs : seq arr) : good_train s cs -> pos_train s (TT cs).
Proof. by case=> w e ps pr; apply/pos_trainP; exists cs => //; split=> //; rewrite (pos_ttE w) e ps. Qed.

Lemma good_maps_pos fs s : good_maps qr fs s -> all (@map_pos R) fs.
Proof.
case=> _ _; elim: fs => //= f fs IH h; apply/andP; split; last by apply: IH => ms hms; apply: h; right.
by case: f h => [ms|p|ins outs call] h //; apply: (h ms); left.
Qed.

Lemma round_within n s (Xs : seq tensor) max_rank rk eps m : pos_sum s (TSum s Xs) -> (1 < size Xs)%N -> (1 < size s)%N ->
  process_tt_rank max_rank s false = Ok rk -> method_ok m s rk -> or_linalg (round_call n (TSum s Xs) max_rank eps m) (within s rk).
Proof.
move=> pX n1 s1 hp hm; rewrite /Gmres.round_call.
have [wX sX] := train_sum_wf (pos_sum_train pX); have [x ex _] := to_numpyE wX.
case: m hm => //= hm.
- by apply: or_imp (C44_exact to_normal tt_random stream offset right_seed_of lstsq qr_econ (proj1 qrP) svdP (ent n) eps (2, 1)%N pX s1 hp ex) _ => Y [hw _].
- exact: (C44_pairwise to_normal tt_random stream offset right_seed_of lstsq qr_econ (proj1 qrP) svdP (ent n) eps (2, 1)%N erefl pX n1 s1 hp).
- by have [h _] := C44_sketch qr svd to_normal stream offset right_seed_of qr_econ lstsqP rndP (ent n) eps pX s1 (isT : (0 < 1 < 2)%N) hp hm ex.
- have s2 : (1 < size s <= 102)%N by rewrite s1 hm.2.
  by apply: or_imp (C44_orth_sketch qr svd to_normal stream offset right_seed_of lstsqP qr_econP rndP (ent n) eps pX s2 (isT : (0 < 1 < 2)%N) hp hm.1 ex) _ => Y [hw _].
Qed.

Lemma good_method_ok m s rk : good_method m s -> allpos rk -> method_ok m s rk.
Proof. by case: m => //= h hr; split. Qed.

Lemma okor_imp2 (E E' : exn -> Prop) (A : Type) (x : res A) P : (forall e, E e -> E' e) -> okor E x P -> okor E' x P.
Proof. by case: x => //= e h; apply: h. Qed.

Lemma mapM_finite (A : Type) (d : A) l : all (@isSome A) l -> mapM (finite (A:=A)) l = Ok (map (odflt d) l).
Proof. by elim: l => //= -[a|//] l IH /= h; rewrite IH. Qed.

Lemma tadd_size s (X Y : tensor) : pos_train s X -> pos_sum s Y -> exists2 Zs, tadd X Y = Ok (TSum s Zs) &
  [/\ pos_sum s (TSum s Zs), (1 < size Zs)%N & forall i, den (TSum s Zs) i = den X i + den Y i].
Proof.
move=> pX pY; have pY' : pos_any s Y by rewrite /pos_any pY orbT.
have [Z eZ [pZ gZ]] := tadd_any pX pY'; case/pos_sumP: (pZ) => Zs eZs _; exists Zs; first by rewrite eZ eZs.
rewrite -eZs; split=> //.
case/pos_sumP: pY eZ => Ys -> [nY _]; case/pos_trainP: pX => cs -> _; rewrite eZs /tadd.
have -> : mk_sum (TT cs :: Ys) = Ok (TSum (tshape (TT cs)) (TT cs :: Ys)) by [].
by case=> _ <-; case: (Ys) nY.
Qed.

(* ---- what a run returns ---- *)
Section Run.
Variables (s : seq nat) (op : (seq nat -> R) -> seq nat -> R) (bp x0 : seq nat -> R) (sym : bool) (tol bn : R) (M : nat) (mr : seq nat) (m : rounding)
  (frk : ttrank) (mf : rounding) (rkf : seq nat).

Record run_post (o : gmres_out R) (k : nat) (beta : R) (rs : nat -> R) : Prop := RunPost {
  rp_iters : run_iters o = k;
  rp_k : (0 < k <= M)%N;
  rp_nu : size (g_nu o) = k /\ forall l, (l < k)%N -> pos_train s (nth (TT [::]) (g_nu o) l);
  rp_H : is_mat (g_H o) M.+1 M;
  rp_tr : size (g_trace o) = (2 * k + 2)%N;
  rp_trp : forall l, (l < 2 * k + 1)%N -> pos_sum s (nth (dT R, dT R) (g_trace o) l).1 /\ pos_train s (nth (dT R, dT R) (g_trace o) l).2;
  rp_call : forall l, (l < 2 * k + 1)%N -> round_call l (nth (dT R, dT R) (g_trace o) l).1 (RTuple mr) (eps_of (g_delta o) l) m = Ok (nth (dT R, dT R) (g_trace o) l).2;
  rp_arn : arnoldi s op sym bp x0 k (run_inp o) (run_out o) beta (run_nu o) (run_H o);
  rp_nb : no_breakdown k beta (run_H o);
  rp_y : is_vec (g_y o) k;
  rp_lsq : is_lsq (run_H o) beta k (run_y o) (rs k);
  rp_rs0 : rs 0%N = beta;
  rp_rs : forall l, (0 < l <= k)%N -> exists y, is_lsq (run_H o) beta l y (rs l);
  rp_rsn : forall l, (l < k)%N -> rs l != 0;
  rp_hres : g_residual_norm o = [seq fdiv (if l == 0%N then beta else Num.sqrt (rs l)) bn | l <- iota 0 k.+1];
  rp_delta : g_delta o = [seq tol / (rs l / beta) | l <- iota 0 k];
  rp_stop : forall l, (0 < l < k)%N -> ~~ stops tol bn (rs l);
  rp_end : k = M \/ stops tol bn (rs k);
  rp_w : [/\ size (g_w_norm o) = k.+1, nth None (g_w_norm o) 0 = Some 1 & forall l, (l < k)%N -> nth None (g_w_norm o) l.+1 = Some (run_H o l.+1 l)];
  rp_rank : size (g_rank o) = k.+1 /\ forall l, (l <= k)%N -> rank_of (nth (dT R, dT R) (g_trace o) (2 * l)).2 = Ok (nth [::] (g_rank o) l);
  rp_x : (nth (dT R, dT R) (g_trace o) (2 * k + 1)).2 = g_x o;
  rp_xpos : pos_sum s (nth (dT R, dT R) (g_trace o) (2 * k + 1)).1;
  rp_final : round_call (2 * M + 1) (nth (dT R, dT R) (g_trace o) (2 * k + 1)).1 frk None mf = Ok (g_x o);
  rp_result : eqf s (run_inp o (2 * k + 1)) (combine x0 k (run_y o) (run_nu o));
  rp_within : within s rkf (g_x o) }.
End Run.

Section Main.
Variables (s rkf : seq nat) (fs : seq (ttmap R)) (pre : option (precond R)) (b : seq arr) (max_rank : ttrank) (final_rank : option ttrank)
  (x0 : option (seq arr)) (tol : R) (M : nat) (sym : bool) (m mf : rounding).
Hypothesis valid : gmres_valid qr fs s b max_rank pre final_rank x0 m mf rkf.
Let op := op_act fs pre s.
Let bp := pre_act pre s (den (TT b)).
Let bn := norm2 s (den (TT b)).
Notation gmres := (tt_sum_gmres qr svd solve_tri to_normal tt_random stream offset right_seed_of lstsq qr_econ np_lstsq ent
  (MapSum fs s s) b max_rank pre final_rank x0 tol M sym m mf).

(* errors: without iterations the solution vector is unbound *)
Definition run_err (e : exn) : Prop := if M == 0%N then e = LinAlgError \/ e = UnboundLocalError else gmres_err e.

(* ... the rounded initial residual is zero, or the iteration fails *)
Definition run_fail (e : exn) : Prop := e = LinAlgError \/ (M = 0%N /\ e = UnboundLocalError) \/
  exists2 mr, process_tt_rank max_rank s true = Ok mr & (0 < M)%N /\
    ((e = NonFinite /\ exists X r0, [/\ pos_sum s X, pos_train s r0, round_call 0 X (RTuple mr) None m = Ok r0,
        eqf s (den X) (fun i => bp i - op (x0_of x0) i) & norm2 s (den r0) = 0]) \/
     exists2 beta, beta != 0 & failed qr svd to_normal tt_random stream offset right_seed_of lstsq qr_econ ent s mr fs pre tol sym m beta bn M bp (x0_of x0) e).

Lemma run_ok_fail : okor run_fail gmres (fun o => exists mr k beta rs, process_tt_rank max_rank s true = Ok mr /\
   run_post s op bp (x0_of x0) sym tol bn M mr m (odflt max_rank final_rank) (final_method m mf) rkf o k beta rs).
Proof.
have [s1 gm gp gb gx [rk hrk prk] [hrkf prkf] hm hmf] := valid.
have pb := pos_train_good gb; have [_ sb s0 ps] := train_shape pb.
have [nf hf _] := gm; have hpf := good_maps_pos gm.
have hE : run_fail LinAlgError by left.
have okl := fun A x P => @okor_linalg run_fail A x P hE.
rewrite /tt_sum_gmres [m_out _]/= [m_in _]/=.
have -> : (s != tshape (TT b)) = false by rewrite sb eqxx.
have -> : (if x0 is Some cs then tshape (TT cs) != s else false) = false.
  by case: x0 gx => // cs [_ -> _ _]; rewrite eqxx.
rewrite eqxx; have -> : (if final_rank is Some r then r else max_rank) = odflt max_rank final_rank by case: final_rank.
have -> : (if mf is RNone then m else mf) = final_method m mf by [].
have [mr hmr] := process_true hrk; rewrite hmr; cbn [bind].
have [_ smr pmr _] := process_trim ps hrk prk hmr.
have hmr' := process_rtuple s0 smr.
have hm' : method_ok m s mr := good_method_ok hm pmr.
have [xc -> [px gxc]] : exists2 xc, (if x0 is Some cs then Ok cs else tt_zero R s (RInt 1)) = Ok xc & pos_train s (TT xc) /\ eqf s (den (TT xc)) (x0_of x0).
  case: x0 gx => [cs gx|_]; first by exists cs => //; split; [exact: pos_train_good|].
  have h1 : process_tt_rank (RInt 1) s false = Ok (nseq (size s).-1 1%N).
    by rewrite /process_tt_rank /= size_nseq eqxx; case: (s) s0.
  have [xc -> [w e er g]] := @tt_zeroE R s (RInt 1) _ h1; exists xc => //; split=> //.
  by apply: pos_train_good; split=> //; rewrite er all_nseq orbT.
cbn [bind].
have hb : or_linalg (if pre is Some p then precond_backward solve_tri p b else Ok b) (fun bc => pos_train s (TT bc) /\ eqf s (den (TT bc)) bp).
  case: pre gp @op @bp valid => [p|] gp op' bp' _; last by split.
  have [wb _ _ _] := gb; have pb' : pos_tt b by rewrite (pos_ttE wb) sb ps; case: gb.
  have h1 := @map_call_pos R qr solve_tri qrP solP (MapPre p) s b gp isT wb sb pb'.
  have h2 := @map_callE R qr solve_tri qrP solP (MapPre p) s s b gp wb sb.
  by apply: or_imp (or_and h1 h2) _ => bc [p1 [_ _ g]].
apply: okor_bind (okl _ _ _ hb) _ => bc [pbc gbc].
apply: okor_bind (okl _ _ _ (norm_train qrP pb)) _ => bn' ebn; have {ebn}-> : bn' = bn by [].
have px' : pos_any s (TT xc) by rewrite /pos_any px.
apply: okor_bind (okl _ _ _ (applyE qrP solP s s nf hf hpf gp px')) _ => Ax [pAx gAx].
have pAx' : pos_any s Ax by rewrite /pos_any pAx orbT.
have [rsd -> [prsd grsd]] := tsub_any pbc pAx'; cbn [bind].
apply: okor_bind_eq (okl _ _ _ (round_ok to_normal stream offset right_seed_of ent qrP svdP lstsqP qr_econP rndP _ _ prsd s1 hmr' hm')) _ => r0 call0 pr0.
apply: okor_bind (okl _ _ _ (norm_train qrP pr0)) _ => beta ebeta; have {ebeta}ebeta : beta = norm2 s (den r0) by [].
have [cr0 er0 _] := pos_trainP _ _ pr0.
have rkr : rank_of r0 = Ok (tt_rank cr0) by rewrite er0.
case: (eqVneq beta 0) => [b0|b0].
  have -> : tdivf r0 beta = Ok None by rewrite /tdivf b0 eqxx.
  cbn [bind]; rewrite rkr; cbn [bind].
  have linop0 := op_act_lin hf gp.
  case M0: (M) => [|M']; first by right; left.
  right; right; exists mr; [by []|split; [by rewrite M0|left; split=> //; exists rsd, r0; split=> //]].
    by move=> i hi; rewrite grsd // gbc // gAx //; congr (_ - _); exact: linop0.1.
  by rewrite -ebeta.
have [X0 -> [pX0 gX0]] := tdivf_train pr0 b0; cbn [bind].
apply: okor_bind.
  apply: (okl _ _ (fun w0 => w0 = Some 1)); apply: (or_bind (norm_train qrP pX0)) => n0 ->; rewrite /or_linalg; congr Some.
  rewrite -/(norm2 s (den X0)) (@eqf_norm _ s (den X0) (fun i => den r0 i / norm2 s (den r0))); last by move=> i hi; rewrite gX0 // ebeta.
  by rewrite unit_norm -ebeta b0.
move=> _ ->; rewrite rkr; cbn [bind].
set st0 := GmresState _ _ _ _ _ _ _ _ _.
have linop := op_act_lin hf gp.
have v0 : inv qr svd to_normal tt_random stream offset right_seed_of lstsq qr_econ ent s mr fs pre tol sym m beta bn M bp (x0_of x0) 0 st0 (fun=> beta).
  split; rewrite /st0; cbn [s_nu s_H s_res s_y s_w_norm s_rank s_hres s_delta s_trace] => //.
  - by move=> X [<-].
  - by split=> //; exact: nwf_zeros.
  - by move=> p q _ _ _; rewrite /Hf get_zeros.
  - by case.
  - by case.
  - split=> //.
    by move=> i hi; rewrite /inpf /= grsd // gbc // gAx //; congr (_ - _); exact: linop.1.
  - by case.
  - by case.
  - by move=> l; rewrite leqn0 => /eqP ->.
  - by split=> // -[|//] _; rewrite /= er0.
have ns : ~~ ((0 < 0)%N && stops tol bn ((fun=> beta) 0%N)) by [].
have hloop := loop_ok qrP svdP solP nplP lstsqP qr_econP rndP s s s1 nf hf hpf gp hmr' hm' b0 v0 (erefl : (0 + M = M)%N) ns.
move: hloop; set P := (fun st' : gmres_state R => _) => hloop.
apply: (@okor_bind _ _ _ _ _ P).
  case: (posnP M) => M0.
    2: by apply: okor_imp2 hloop => e he; right; right; exists mr => //; split=> //; right; exists beta.
  suff [st' e] : exists st', gmres_loop qr svd solve_tri to_normal tt_random stream offset right_seed_of lstsq qr_econ np_lstsq ent
     (MapSum fs s s) pre mr tol sym m beta bn st0 0 M = Ok st' by move: hloop; rewrite e.
  by rewrite M0; exists st0; rewrite /st0 M0.
move=> st [k [rs [v /andP[_ kM] kM0 hend]]].
have sD : size (s_delta st) = k by rewrite (v_delta v) size_map size_iota.
rewrite sD; have := v_y v; case ek : k => [|k'].
  by move=> -> /=; right; left; case: (posnP M) => [//|/kM0]; rewrite ek.
rewrite -ek => -[y ey [hy hlsq]]; rewrite ey; cbn [bind].
have k0 : (0 < k)%N by rewrite ek.
pose nus := [seq odflt (dT R) o | o <- take k (s_nu st)].
have sk : size (take k (s_nu st)) = k by rewrite size_take (v_size v) ltnSn.
have snus : size nus = k by rewrite size_map sk.
have gnus l : (l < k)%N -> nth None (s_nu st) l = Some (nth (dT R) nus l) /\ pos_train s (nth (dT R) nus l).
  by move=> hl; have [X eX pX] := v_nu v hl; rewrite (nth_map None) ?sk // nth_take // eX.
have -> : mapM (finite (A:=tensor)) (take k (s_nu st)) = Ok nus.
  apply: mapM_finite; apply/(all_nthP None) => l; rewrite sk => hl.
  by rewrite nth_take //; have [-> _] := gnus l hl.
cbn [bind].
have nn : ~~ nilp nus by rewrite /nilp snus -lt0n.
have an : all (pos_train s) nus by apply/(all_nthP (dT R)) => l; rewrite snus => /gnus[].
have sy : size (ndata y) = k by have := eqP hy.1; rewrite hy.2 /= muln1.
have gy l : (l < k)%N -> nth 0 (take k (ndata y)) l = get y [:: l].
  by move=> hl; rewrite nth_take // /get hy.2 /ravel /= muln1 addn0.
have [Sm -> [pSm gSm]] := @sum_mul_pos R s nus (take k (ndata y)) nn an ltac:(by rewrite size_take sy ltnn).
cbn [bind].
have [Zs eZ [pZ n1 gZ]] := tadd_size px pSm; rewrite eZ; cbn [bind].
have hmf' := good_method_ok hmf prkf.
apply: okor_bind_eq (okl _ _ _ (round_within (2 * M + 1) None pZ n1 s1 hrkf hmf')) _ => x callx wx.
set o := GmresOut _ _ _ _ _ _ _ _ _; rewrite [okor _ _ _]/=.
have ki : run_iters o = k by [].
have trL l : (l < 2 * k + 1)%N -> nth (dT R, dT R) (g_trace o) l = nth (dT R, dT R) (s_trace st) l.
  by move=> hl; rewrite /o [g_trace _]/= nth_rcons (v_tr v) hl.
have trE : nth (dT R, dT R) (g_trace o) (2 * k + 1) = (TSum s Zs, x).
  by rewrite /o [g_trace _]/= nth_rcons (v_tr v) ltnn eqxx.
have nuE l : (l < k)%N -> run_nu o l = nuf (s_nu st) l.
  by move=> hl; rewrite /run_nu ki hl /nuf; have [-> _] := gnus l hl.
have ioE l : (l <= 2 * k)%N -> run_inp o l = inpf (s_trace st) l /\ run_out o l = outf (s_trace st) l.
  by move=> hl; rewrite /run_inp /run_out /inpf /outf trL //; clear -hl; lia.
exists mr, k, beta, rs; split=> //; split=> //.
- by rewrite k0.
- by split=> // l /gnus[].
- exact: (v_H v).
- by rewrite /o [g_trace _]/= size_rcons (v_tr v) -addnS.
- by move=> l hl; rewrite trL //; exact: (v_trp v).
- by move=> l hl; rewrite trL //; exact: (v_call v).
- apply: (arn_same (v_arn v)) => [l /ioE[]|l /ioE[]|||] //.
  move=> i hi; rewrite /run_nu ki ltnn; have [_ ->] := ioE (2 * k)%N (leqnn _).
  have kk : (k' < k)%N by rewrite ek.
  move: (arn_nu (v_arn v) kk hi); rewrite -ek => ->.
  have e1 : (2 * k' + 2 = 2 * k)%N by clear -ek; lia.
  by have e2 : k.-1 = k' by [rewrite ek]; rewrite e1 e2.
- split=> // j hj; apply/eqP => h0; have := v_bd v (ltnW hj) h0; by have [-> _] := gnus _ hj.
- exact: (v_rs0 v).
- exact: (v_rs v).
- exact: (v_rsn v).
- exact: (v_hres v).
- exact: (v_delta v).
- exact: (v_stop v).
- exact: (v_w v).
- have [sr hr] := v_rank v; split=> // l hl; rewrite trL ?hr //; clear -hl; lia.
- by rewrite trE.
- by rewrite trE.
- by rewrite trE.
- move=> i hi; rewrite /run_inp trE [(_, _).1]/= gZ gxc // gSm // /combine; congr (_ + _).
  rewrite snus; apply: eq_big_nat => l /andP[_ hl]; rewrite gy // nuE // /nuf.
  by have [-> _] := gnus l hl.
Qed.
Lemma run_ok : okor run_err gmres (fun o => exists mr k beta rs, process_tt_rank max_rank s true = Ok mr /\
   run_post s op bp (x0_of x0) sym tol bn M mr m (odflt max_rank final_rank) (final_method m mf) rkf o k beta rs).
Proof.
apply: okor_imp2 run_ok_fail => e; rewrite /run_err /gmres_err; case=> [->|[[M0 ->]|[mr _ [M0 H]]]].
- by case: ifP => _; left.
- by rewrite M0; right.
rewrite (gtn_eqF M0); case: H => [[-> _]|[beta _ [->|[[-> _]|[-> _]]]]]; by [left|right; left|right; right].
Qed.
End Main.
End G.
