(* Invariant of the loop of tt_sum_gmres. *)
From Coq Require Import String Ascii NArith.
From mathcomp Require Import all_ssreflect all_algebra.
From mathcomp Require Import zify.
From Verif Require Import Py Nd Utils Tensor TensorNum Sketch Mpo Gmres Spec LinSpec RecSpec RoundSpec SkSpec MpoSpec GmresSpec ArnSpec.
From Verif Require Import NdThy Ein MatThy TensorThy TensorThy2 TensorThy3 ChainThy DotThy NormThy SweepThy RoundThy RoundThy2 TrimThy SkThy1 SkThy2 SkThy10 SkThy14
  RecThy3 PrecThy Prop_Mpo Prop_Prec GmresThy1 RoundSumThy Prop_Num Prop_Orth Prop_RoundSum GmresThy2 GmresMath ArnThy ArnThy2 GmresThy3.
Set Implicit Arguments. Unset Strict Implicit. Unset Printing Implicit Defensive.
Import GRing.Theory Num.Theory Order.POrderTheory.
Local Open Scope ring_scope.

Section G.
Variable R : rcfType.
Notation arr := (nd R).
Notation tensor := (tensor R).
Notation allpos := (all (fun n => 0 < n)%N).
Variables (qr : arr -> res (arr * arr)) (svd : arr -> res (arr * arr * arr)).
Variable to_normal : N -> R.
Variable tt_random : seq nat -> seq nat -> N -> seq arr.
Variable stream : N -> nat -> R.
Variable offset : N -> nat -> N.
Variable right_seed_of : N -> nat -> N.
Variable lstsq : arr -> arr -> res arr.
Variable qr_econ : arr -> res (arr * arr).
Variables (solve_tri : arr -> arr -> res arr) (np_lstsq : arr -> arr -> res (arr * seq R)).
Variable ent : nat -> nat -> N.
Hypotheses (qrP : qr_tri_contract qr) (svdP : svd_contract svd) (solP : solve_tri_contract solve_tri) (nplP : np_lstsq_contract np_lstsq).
Hypotheses (lstsqP : lstsq_contract lstsq) (qr_econP : qr_contract qr_econ) (rndP : tt_random_ok tt_random).
Notation round_call := (round_call qr svd to_normal tt_random stream offset right_seed_of lstsq qr_econ ent).

Definition dT : tensor := TT [::].
Definition nuf (nus : seq (option tensor)) (l : nat) : seq nat -> R := if nth None nus l is Some X then den X else fun=> 0.
Definition inpf (tr : seq (tensor * tensor)) (l : nat) : seq nat -> R := den (nth (dT, dT) tr l).1.
Definition outf (tr : seq (tensor * tensor)) (l : nat) : seq nat -> R := den (nth (dT, dT) tr l).2.
Definition Hf (H : arr) (p q : nat) : R := get H [:: p; q].

Lemma mapM_fun (A B : Type) (f : A -> res B) (g : A -> B) l : (forall x, List.In x l -> f x = Ok (g x)) -> mapM f l = Ok (map g l).
Proof. by elim: l => //= x l IH h; rewrite h ?IH //=; [move=> y hy; apply: h; right|left]. Qed.
Lemma in_list (A : eqType) (x : A) l : List.In x l -> x \in l.
Proof. by elim: l => //= y l IH [->|/IH h]; rewrite inE ?eqxx // h orbT. Qed.

Lemma fold_set s (nus : seq (option tensor)) w1 (H0 : arr) m n j ks : pos_train s w1 -> is_mat H0 m n -> (j < n)%N ->
  (forall i, i \in ks -> (i < m)%N /\ exists2 X, nth None nus i = Some X & pos_train s X) ->
  exists2 H, foldM (fun H i => do nu <- finite (nth None nus i); do h <- dot_of w1 nu; set1 H [:: i; j] h) H0 ks = Ok H &
    is_mat H m n /\ forall p q, (p < m)%N -> (q < n)%N ->
      get H [:: p; q] = if (q == j) && (p \in ks) then ipr s (den w1) (nuf nus p) else get H0 [:: p; q].
Proof.
move=> pw hH hj; elim: ks H0 hH => [|i ks IH] H0 hH hk.
  by exists H0 => //; split=> // p q _ _; rewrite andbF.
have [hi [X eX pX]] := hk i (mem_head _ _).
rewrite [foldM _ _ _]/= eX [finite _]/=; cbn [bind]; rewrite (dot_train pw pX); cbn [bind].
have [H1 -> [wH1 sH1 gH1]] := @set1_spec R H0 [:: i; j] (ipr s (den w1) (den X)) hH.1 ltac:(by rewrite hH.2 /= hi hj).
cbn [bind]; have hH1 : is_mat H1 m n by split; rewrite ?sH1 //; exact: hH.2.
have [H2 -> [hH2 gH2]] := IH H1 hH1 (fun i' hi' => hk i' ltac:(by rewrite inE hi' orbT)).
have e p q : ([:: p; q] == [:: i; j]) = (p == i) && (q == j) by rewrite !eqseq_cons eqxx andbT.
exists H2 => //; split=> // p q hp hq; rewrite gH2 // gH1 ?hH.2 /= ?hp ?hq // inE e.
case: (eqVneq q j) => [->|hqj] /=; last by rewrite andbF.
case: (p \in ks); rewrite ?orbT // orbF andbT.
by case: (eqVneq p i) => [->|//]; rewrite /nuf eX.
Qed.

(* ---- the invariant ---- *)
Section Inv.
Variables (s mr : seq nat) (fs : seq (ttmap R)) (pre : option (precond R)) (mi mo : seq nat) (tol : R) (sym : bool) (m : rounding)
  (beta b_norm : R) (M : nat) (bp x0 : seq nat -> R).
Hypotheses (s1 : (1 < size s)%N) (nf : ~~ nilp fs) (hf : forall f, List.In f fs -> map_ok qr f s s) (hpf : all (@map_pos R) fs)
  (hpre : pre_ok qr pre s) (hmr : process_tt_rank (RTuple mr) s false = Ok mr) (hm : method_ok m s mr).
Let op := op_act fs pre s.
Let step := gmres_step qr svd solve_tri to_normal tt_random stream offset right_seed_of lstsq qr_econ np_lstsq ent
   (MapSum fs mi mo) pre mr tol sym m beta b_norm.
Let loop := gmres_loop qr svd solve_tri to_normal tt_random stream offset right_seed_of lstsq qr_econ np_lstsq ent
   (MapSum fs mi mo) pre mr tol sym m beta b_norm.

(* the stopping test *)
Definition stops (r : R) : bool := if fdiv r b_norm is Some q then q < tol else false.

(* the accuracy asked of call l: none for the first one, delta_j in step j *)
Definition eps_of (ds : seq R) (l : nat) : option R := if l == 0%N then None else Some (nth 0 ds l.-1./2).

(* rs 0 = beta, rs l = squared residual of the small system after l iterations *)
Record inv (j : nat) (st : gmres_state R) (rs : nat -> R) : Prop := Inv {
  v_size : size (s_nu st) = j.+1;
  v_nu : forall l, (l < j)%N -> exists2 X, nth None (s_nu st) l = Some X & pos_train s X;
  v_last : forall X, nth None (s_nu st) j = Some X -> pos_train s X;
  v_H : is_mat (s_H st) M.+1 M;
  v_H0 : forall p q, (p <= M)%N -> (q < M)%N -> (j <= q)%N || (q.+1 < p)%N -> Hf (s_H st) p q = 0;
  v_tr : size (s_trace st) = (2 * j + 1)%N;
  v_trp : forall l, (l < 2 * j + 1)%N -> pos_sum s (nth (dT, dT) (s_trace st) l).1 /\ pos_train s (nth (dT, dT) (s_trace st) l).2;
  v_call : forall l, (l < 2 * j + 1)%N -> round_call l (nth (dT, dT) (s_trace st) l).1 (RTuple mr) (eps_of (s_delta st) l) m = Ok (nth (dT, dT) (s_trace st) l).2;
  v_arn : arnoldi s op sym bp x0 j (inpf (s_trace st)) (outf (s_trace st)) beta (nuf (s_nu st)) (Hf (s_H st));
  v_y : if j is 0%N then s_y st = None else
        exists2 y, s_y st = Some y & is_vec y j /\ is_lsq (Hf (s_H st)) beta j (fun q => get y [:: q]) (rs j);
  v_rs0 : rs 0%N = beta;
  v_rs : forall l, (0 < l <= j)%N -> exists y, is_lsq (Hf (s_H st)) beta l y (rs l);
  v_rsn : forall l, (l < j)%N -> rs l != 0;
  v_res : s_res st = rs j;
  v_hres : s_hres st = [seq fdiv (if l == 0%N then beta else Num.sqrt (rs l)) b_norm | l <- iota 0 j.+1];
  v_delta : s_delta st = [seq tol / (rs l / beta) | l <- iota 0 j];
  v_stop : forall l, (0 < l < j)%N -> ~~ stops (rs l);
  v_w : [/\ size (s_w_norm st) = j.+1, nth None (s_w_norm st) 0 = Some 1 &
          forall l, (l < j)%N -> nth None (s_w_norm st) l.+1 = Some (Hf (s_H st) l.+1 l)];
  v_bd : forall l, (l < j)%N -> Hf (s_H st) l.+1 l = 0 -> nth None (s_nu st) l.+1 = None;
  v_none : forall l, (l <= j)%N -> nth None (s_nu st) l = None -> (0 < l)%N /\ Hf (s_H st) l l.-1 = 0;
  v_full : \rank (hmat (Hf (s_H st)) j.+1 j) = j;
  v_rank : size (s_rank st) = j.+1 /\ forall l, (l <= j)%N -> rank_of (nth (dT, dT) (s_trace st) (2 * l)).2 = Ok (nth [::] (s_rank st) l) }.

(* k iterations of a run that may have failed later: its rounding calls, all of which returned a
   train, the Arnoldi process they form, and the accuracies asked of them *)
Record attempt (k : nat) (tr : seq (tensor * tensor)) (ds : seq R) (nu : nat -> seq nat -> R) (H : nat -> nat -> R) : Prop := Attempt {
  at_trp : forall l, (l < 2 * k + 1)%N -> pos_sum s (nth (dT, dT) tr l).1 /\ pos_train s (nth (dT, dT) tr l).2;
  at_call : forall l, (l < 2 * k + 1)%N -> round_call l (nth (dT, dT) tr l).1 (RTuple mr) (eps_of ds l) m = Ok (nth (dT, dT) tr l).2;
  at_arn : arnoldi s op sym bp x0 k (inpf tr) (outf tr) beta nu H;
  at_nb : no_breakdown k beta H;
  at_ds : exists rs : nat -> R, ds = [seq tol / (rs l / beta) | l <- iota 0 k] }.

(* how the iteration fails: LinAlgError of a routine; division by zero, after at least one and less
   than maxiter iterations which solve the small system exactly but did not meet the stopping test;
   or, after at most maxiter iterations, a rank deficient small system: the last vector is zero and
   the square part is singular *)
Definition failed (e : exn) : Prop := e = LinAlgError \/
  (e = NonFinite /\ exists k tr ds nu H, [/\ attempt k tr ds nu H, (0 < k < M)%N, exists y, is_lsq H beta k y 0 & ~~ stops 0]) \/
  (e = ValueError /\ exists k tr ds nu H, [/\ attempt k tr ds nu H, (0 < k <= M)%N, H k k.-1 = 0 &
     exists2 z : nat -> R, exists2 q, (q < k)%N & z q != 0 & forall p, (p < k.+1)%N -> \sum_(0 <= q < k) H p q * z q = 0]).

Hypothesis b0 : beta != 0.

Lemma inv_attempt j st rs : inv j st rs -> attempt j (s_trace st) (s_delta st) (nuf (s_nu st)) (Hf (s_H st)).
Proof.
move=> v; split; [exact: (v_trp v)|exact: (v_call v)|exact: (v_arn v)| |by exists rs; exact: (v_delta v)].
split=> // l hl; apply/eqP => h0; have := v_bd v (ltnW hl) h0.
by have [X ->] := v_nu v hl.
Qed.

Lemma zero_failed j st rs : inv j st rs -> (j < M)%N -> ~~ ((0 < j)%N && stops (rs j)) -> rs j = 0 -> failed NonFinite.
Proof.
move=> v jM ns r0; have j0 : (0 < j)%N by rewrite lt0n; apply/eqP => e; move: r0; rewrite e (v_rs0 v); exact/eqP.
right; left; split=> //; exists j, (s_trace st), (s_delta st), (nuf (s_nu st)), (Hf (s_H st)).
split; [exact: inv_attempt v|by rewrite j0| |by move: ns; rewrite r0 j0].
have l1 : (0 < j <= j)%N by rewrite j0 leqnn.
by have := v_rs v l1; rewrite r0.
Qed.

Lemma none_zero j st rs : inv j st rs -> (j <= M)%N -> nth None (s_nu st) j = None -> rs j = 0.
Proof.
move=> v jM /(v_none v (leqnn j))[j0 h0]; have jj : (0 < j <= j)%N by rewrite j0 leqnn.
have [y hy] := v_rs v jj; apply: (lsq_breakdown j0 hy (v_full v)) => q hq.
case: (eqVneq q j.-1) => [->//|hne]; apply: (v_H0 v); [exact: jM|exact: leq_trans hq jM|by clear -hq hne; lia].
Qed.

Lemma step_ok j st rs : inv j st rs -> (j < M)%N -> ~~ ((0 < j)%N && stops (rs j)) ->
  okor failed (step st j) (fun r => exists2 rs', inv j.+1 r.1 rs' & r.2 = stops (rs' j.+1)).
Proof.
move=> v jM ns; rewrite /step /gmres_step.
have lastE : last None (s_nu st) = nth None (s_nu st) j by rewrite -nth_last (v_size v).
rewrite lastE; case eL: (nth None (s_nu st) j) => [X|]; last by apply: (zero_failed v jM ns); exact: (none_zero v (ltnW jM) eL).
have pX := v_last v eL; rewrite [finite _]/=; cbn [bind].
rewrite (v_res v) {1 2}/fdiv (negPf b0).
case: eqVneq => [/eqP h0|rb0].
  by apply: (zero_failed v jM ns); move: h0; rewrite mulf_eq0 invr_eq0 (negPf b0) orbF => /eqP.
rewrite [finite _]/=; cbn [bind]; set delta := tol / _.
have rj0 : rs j != 0 by apply: contraNneq rb0 => ->; rewrite mul0r.
have okl := fun A x P => @okor_linalg failed A x P (or_introl erefl).
have pX' : pos_any s X by rewrite /pos_any pX.
apply: okor_bind (okl _ _ _ (applyE qrP solP mi mo nf hf hpf hpre pX')) _ => ws [pws gws].
apply: okor_bind_eq (okl _ _ _ (round_ok to_normal stream offset right_seed_of ent qrP svdP lstsqP qr_econP rndP _ _ pws s1 hmr hm)) _ => w1 call1 pw1.
have -> : iota (if sym then (j - 2)%N else 0%N) (j.+1 - (if sym then (j - 2)%N else 0%N)) = window sym j by case: sym.
set ks := window sym j.
have hks i : i \in ks -> (i <= j)%N by exact: window_le.
have nuP i : (i <= j)%N -> exists2 X, nth None (s_nu st) i = Some X & pos_train s X.
  by rewrite leq_eqVlt => /orP[/eqP ->|/(v_nu v)//]; exists X.
have [H -> [hH gH]] := @fold_set s (s_nu st) w1 (s_H st) M.+1 M j ks pw1 (v_H v) jM
   (fun i hi => conj (leq_ltn_trans (hks i hi) (leqW jM)) (nuP i (hks i hi))).
cbn [bind].
pose gn i := odflt dT (nth None (s_nu st) i).
have hgn i : i \in ks -> pos_train s (gn i) /\ den (gn i) = nuf (s_nu st) i.
  by move=> /hks/nuP[Y eY pY]; rewrite /gn /nuf eY.
rewrite (@mapM_fun _ _ _ gn) => [|i /in_list/hks/nuP[Y eY _]]; last by rewrite /gn eY.
cbn [bind]; have nk : ~~ nilp (map gn ks).
  by rewrite /nilp size_map /ks /window; case: sym; rewrite size_iota //; clear; lia.
have ak : all (pos_train s) (map gn ks) by rewrite all_map; apply/allP => i /hgn[].
have [Sm -> [pSm gSm]] := @sum_mul_pos R s (map gn ks) [seq get H [:: i; j] | i <- ks] nk ak ltac:(by rewrite !size_map).
cbn [bind].
have {}gSm i : inb s i -> den Sm i = \sum_(p <- ks) Hf H p j * nuf (s_nu st) p i.
  move=> hi; rewrite gSm // size_map [RHS](big_nth 0%N); apply: eq_big_nat => l /andP[_ hl].
  rewrite (nth_map 0%N) // (nth_map 0%N) //; by have [_ ->] := hgn _ (mem_nth 0%N hl).
have pSm' : pos_any s Sm by rewrite /pos_any pSm orbT.
have [ws2 -> [pws2 gws2]] := tsub_any pw1 pSm'; cbn [bind].
apply: okor_bind_eq (okl _ _ _ (round_ok to_normal stream offset right_seed_of ent qrP svdP lstsqP qr_econP rndP _ _ pws2 s1 hmr hm)) _ => w2 call2 pw2.
apply: okor_bind (okl _ _ _ (norm_train qrP pw2)) _ => h eh.
have [H' -> [wH' sH' gH']] := @set1_spec R H [:: j.+1; j] h hH.1 ltac:(by rewrite hH.2 /= !ltnS jM).
cbn [bind]; have hH' : is_mat H' M.+1 M by split; rewrite ?sH' //; exact: hH.2.
have [nu' -> [hnu1 hnu2 hnu3]] : exists2 o, tdivf w2 h = Ok o & [/\ (forall Y, o = Some Y -> pos_train s Y),
    eqf s (if o is Some Y then den Y else fun=> 0) (fun i => den w2 i / h) & h = 0 <-> o = None].
  case: (eqVneq h 0) => [h0|h0].
    by rewrite /tdivf h0 eqxx; exists None => //; split=> // i hi; rewrite invr0 mulr0.
  by have [Y -> [pY gY]] := tdivf_train pw2 h0; exists (Some Y) => //; split=> [_ [<-]||] //; split=> // /eqP; rewrite (negPf h0).
cbn [bind].
have [hS1 gS1] := slice_cols hH' jM.
have [hS2 gS2] := slice_rows hS1 (jM : j.+2 <= M.+1)%N.
set Hred := slice_ax 0 0 j.+2 _ in hS2 gS2 *.
have gR p q : (p < j.+2)%N -> (q < j.+1)%N -> get Hred [:: p; q] = Hf H' p q.
  move=> hp hq; rewrite gS2 // gS1 //; clear -hp jM; lia.
have [e1 -> [we1 se1 ge1]] := @set1_spec R (zeros R [:: j.+2]) [:: 0%N] beta (nwf_zeros _ _) isT; cbn [bind].
have he1 : is_vec e1 j.+2 by split.
apply: okor_bind (okl _ _ _ (nplP hS2 he1 (ltnSn _))) _ => -[y rl]; rewrite [(y, rl).1]/= [(y, rl).2]/= => -[hy hne erl].
rewrite erl; set rsq := \sum_(0 <= p < j.+2) _.
have ge p : (p < j.+2)%N -> get e1 [:: p] = if p == 0%N then beta else 0.
  move=> hp; rewrite ge1 ?inb1 //=; last by rewrite hp.
  by rewrite eqseq_cons andbT; case: eqP => // _; rewrite get_zeros.
have lsq' : is_lsq (Hf H') beta j.+1 (fun q => get y [:: q]) rsq.
  have er : rsq = small_sq (Hf H') beta j.+1 (fun q => get y [:: q]).
    apply: eq_big_nat => p /andP[_ hp]; rewrite ge //; congr ((_ - _) ^+ 2); apply: eq_big_nat => q /andP[_ hq].
    by rewrite gR.
  split=> // z; rewrite er; apply: lsq_min => q hq.
  rewrite -[RHS](hne q hq); apply: eq_big_nat => p /andP[_ hp]; rewrite gR // ge //; congr (_ * (_ - _)).
  by apply: eq_big_nat => q' /andP[_ hq']; rewrite gR.
have HfE p q : (p <= M)%N -> (q < M)%N -> Hf H' p q =
   if q == j then (if p == j.+1 then h else if p \in ks then ipr s (den w1) (nuf (s_nu st) p) else 0) else Hf (s_H st) p q.
  move=> hp hq; rewrite /Hf gH' ?hH.2 /= ?ltnS ?hp ?hq // !eqseq_cons andbT gH //.
  case: (eqVneq q j) => [->|hqj]; last by rewrite andbF.
  by rewrite andbT; case: (eqVneq p j.+1) => //= hpj; case: ifP => // _; apply: (v_H0 v) => //; rewrite leqnn orTb.
have nuR l : (l <= j)%N -> nuf (rcons (s_nu st) nu') l = nuf (s_nu st) l.
  by move=> hl; rewrite /nuf nth_rcons (v_size v) ltnS hl.
have nuL : nuf (rcons (s_nu st) nu') j.+1 = if nu' is Some Y then den Y else fun=> 0.
  by rewrite /nuf nth_rcons (v_size v) ltnn eqxx.
have trR l : (l < 2 * j + 1)%N -> nth (dT, dT) (s_trace st ++ [:: (ws, w1); (ws2, w2)]) l = nth (dT, dT) (s_trace st) l.
  by move=> hl; rewrite nth_cat (v_tr v) hl.
have tr1 : nth (dT, dT) (s_trace st ++ [:: (ws, w1); (ws2, w2)]) (2 * j + 1) = (ws, w1).
  by rewrite nth_cat (v_tr v) ltnn subnn.
have tr2 : nth (dT, dT) (s_trace st ++ [:: (ws, w1); (ws2, w2)]) (2 * j + 2) = (ws2, w2).
  rewrite nth_cat (v_tr v); have -> : (2 * j + 2 < 2 * j + 1)%N = false by clear; lia.
  by have -> : (2 * j + 2 - (2 * j + 1) = 1)%N by clear; lia.
have njk : (j.+1 \in ks) = false by apply/negP => /hks; rewrite ltnn.
have a' : arnoldi s op sym bp x0 j.+1 (inpf (s_trace st ++ [:: (ws, w1); (ws2, w2)])) (outf (s_trace st ++ [:: (ws, w1); (ws2, w2)]))
    beta (nuf (rcons (s_nu st) nu')) (Hf H').
  apply: (arn_ext (v_arn v)).
  - by move=> l hl; rewrite /inpf trR //; clear -hl; lia.
  - by move=> l hl; rewrite /outf trR //; clear -hl; lia.
  - exact: nuR.
  - by move=> p q hp hq; rewrite HfE ?ifF //; clear -hp hq jM; lia.
  - move=> q hq; rewrite HfE; [|by clear -hq jM; lia..]; rewrite ifF; last by clear -hq; lia.
    by apply: (v_H0 v); clear -hq jM; lia.
  - by rewrite /inpf tr1 nuR // /nuf eL => i hi; rewrite /= gws.
  - move=> p hp; rewrite HfE ?eqxx //; last by clear -hp jM; lia.
    rewrite /outf tr1 tr2 /= eh -/ks; case: eqVneq => [->|hpj]; first by rewrite njk.
    by case: ifP => // /hks hpk; rewrite nuR.
  - rewrite /inpf /outf tr1 tr2 => i hi; rewrite /= gws2 // gSm //; congr (_ - _).
    rewrite big_seq [RHS]big_seq; apply: eq_bigr => p hp; have hpj := hks p hp.
    rewrite nuR //; congr (_ * _); rewrite HfE ?eqxx; [|by clear -hpj jM; lia|by []].
    rewrite ifF; last by clear -hpj; lia.
    by rewrite /Hf gH ?eqxx ?hp //; clear -hpj jM; lia.
  - rewrite nuL /outf tr2 /= => i hi; rewrite hnu2 //; congr (_ / _).
    by rewrite HfE ?eqxx //.
have trP' l : (l < 2 * j.+1 + 1)%N -> pos_sum s (nth (dT, dT) (s_trace st ++ [:: (ws, w1); (ws2, w2)]) l).1 /\ pos_train s (nth (dT, dT) (s_trace st ++ [:: (ws, w1); (ws2, w2)]) l).2.
  move=> hl; case: (ltnP l (2 * j + 1)) => hl2; first by rewrite trR //; exact: (v_trp v).
  case: (eqVneq l (2 * j + 1)%N) => [->|hl3]; first by rewrite tr1.
  by rewrite (_ : l = (2 * j + 2)%N) ?tr2 //; clear -hl hl2 hl3; lia.
have callP' l : (l < 2 * j.+1 + 1)%N -> round_call l (nth (dT, dT) (s_trace st ++ [:: (ws, w1); (ws2, w2)]) l).1 (RTuple mr) (eps_of (rcons (s_delta st) delta) l) m = Ok (nth (dT, dT) (s_trace st ++ [:: (ws, w1); (ws2, w2)]) l).2.
  move=> hl; have sd : size (s_delta st) = j by rewrite (v_delta v) size_map size_iota.
  case: (ltnP l (2 * j + 1)) => hl2.
    rewrite trR // -(v_call v hl2) /eps_of; case: (eqVneq l 0%N) => [//|l0]; rewrite nth_rcons sd.
    by rewrite (_ : (l.-1./2 < j)%N) //; clear -hl2 l0; lia.
  case: (eqVneq l (2 * j + 1)%N) => [->|hl3].
    by rewrite tr1 /eps_of nth_rcons sd addn1 /= mul2n doubleK ltnn eqxx -mul2n -addn1.
  have -> : l = (2 * j + 2)%N by clear -hl hl2 hl3; lia.
  by rewrite tr2 /eps_of nth_rcons sd addn2 /= mul2n uphalf_double ltnn eqxx -mul2n -addn2.
have Hold p q : (p <= M)%N -> (q < j)%N -> Hf H' p q = Hf (s_H st) p q.
  by move=> hp hq; rewrite HfE ?ifF //; clear -hq jM; lia.
have at' : attempt j.+1 (s_trace st ++ [:: (ws, w1); (ws2, w2)]) (rcons (s_delta st) delta) (nuf (rcons (s_nu st) nu')) (Hf H').
  split=> //.
  - split=> // l; rewrite ltnS leq_eqVlt => /orP[/eqP el|hl].
      have lj : (l < j)%N by rewrite -el.
      have lM : (l.+1 <= M)%N by apply: leq_trans lj (ltnW jM).
      by rewrite Hold //; apply/eqP => /(v_bd v lj) hbd; move: eL; rewrite -el hbd.
    by rewrite Hold; [exact: (at_nb (inv_attempt v)).2|clear -hl jM; lia|exact: ltnW].
  - exists (fun l => if (l <= j)%N then rs l else rsq); rewrite (v_delta v) -[in RHS]addn1 iotaD map_cat -cats1; congr (_ ++ _); last by rewrite /= add0n leqnn.
    by apply/eq_in_map => l; rewrite mem_iota add0n => /andP[_ /ltnW ->].
have rkE : amat Hred j.+2 j.+1 = hmat (Hf H') j.+2 j.+1 by apply/matrixP => p q; rewrite !mxE gR.
case: eqP => hrk; last first.
  right; right; split=> //; exists j.+1, (s_trace st ++ [:: (ws, w1); (ws2, w2)]), (rcons (s_delta st) delta), (nuf (rcons (s_nu st) nu')), (Hf H').
  have [z hz1 hz2] := @kernel_ex _ (Hf H') j.+2 j.+1 ltac:(by rewrite -rkE; exact/eqP).
  split=> //; last by exists z.
  apply: (hess_deficient _ _ hz1 hz2) => [p q hp hpq|l hl]; last exact: (at_nb at').2.
  case: (ltnP q j.+1) => hq; first by apply: (H_zero a').
  by clear -hp hpq hq; lia.
cbn [bind].
case/pos_trainP: (pw2) => cw ew2 _; rewrite {1}ew2 [rank_of _]/=; cbn [bind]; rewrite [okor _ _ _]/=.
exists (fun l => if (l <= j)%N then rs l else rsq); last by rewrite ltnn.
have rsR l : (l <= j)%N -> (if (l <= j)%N then rs l else rsq) = rs l by move=> ->.
have rsL : (if (j.+1 <= j)%N then rs j.+1 else rsq) = rsq by rewrite ltnn.
have lsqR l y0 r : (l <= j)%N -> is_lsq (Hf (s_H st)) beta l y0 r -> is_lsq (Hf H') beta l y0 r.
  by move=> hl hlsq; apply: (lsq_ext hlsq) => // p q hp hq; apply: Hold; clear -hl hp hq jM; lia.
split; cbn [s_nu s_H s_res s_y s_w_norm s_rank s_hres s_delta s_trace].
- by rewrite size_rcons (v_size v).
- move=> l; rewrite ltnS => hl; rewrite nth_rcons (v_size v) ltnS hl; exact: nuP.
- by move=> Y; rewrite nth_rcons (v_size v) ltnn eqxx; apply: hnu1.
- exact: hH'.
- move=> p q hp hq hor; rewrite HfE //; case: eqVneq => [eq|hqj]; last by apply: (v_H0 v) => //; clear -hor hqj; lia.
  rewrite ifF; last by clear -hor eq; lia.
  by rewrite ifF //; apply/negP => /hks; clear -hor eq; lia.
- by rewrite size_cat (v_tr v) /=; clear; lia.
- exact: trP'.
- exact: callP'.
- exact: a'.
- by exists y => //; rewrite ltnn.
- exact: (v_rs0 v).
- move=> l /andP[l0]; rewrite leq_eqVlt ltnS => /orP[/eqP ->|hl]; first by exists (fun q => get y [:: q]); rewrite ltnn.
  have l1 : (0 < l <= j)%N by rewrite l0.
  have [y0 hy0] := v_rs v l1.
  by exists y0; rewrite hl; apply: lsqR.
- move=> l; rewrite ltnS => hl; rewrite hl; move: hl; rewrite leq_eqVlt => /orP[/eqP -> //|]; exact: (v_rsn v).
- by rewrite ltnn.
- rewrite (v_hres v) -[in RHS](addn1 j.+1) iotaD map_cat -cats1; congr (_ ++ _); last by rewrite /= add0n ltnn.
  by apply/eq_in_map => l; rewrite mem_iota add0n ltnS => /andP[_ hl]; rewrite hl.
- rewrite (v_delta v) -[in RHS]addn1 iotaD map_cat -cats1; congr (_ ++ _); last by rewrite /= add0n leqnn.
  by apply/eq_in_map => l; rewrite mem_iota add0n => /andP[_ /ltnW ->].
- move=> l /andP[l0]; rewrite ltnS => hl; rewrite hl.
  by move: hl; rewrite leq_eqVlt => /orP[/eqP el|hl]; [move: ns; rewrite -el l0|apply: (v_stop v); rewrite l0].
- have [sw w0 hw] := v_w v; split=> [||l]; [by rewrite size_rcons sw|by rewrite nth_rcons sw|].
  rewrite ltnS => hl; rewrite nth_rcons sw ltnS; case: ltngtP hl => // hl _; first by rewrite hw // Hold //; clear -hl jM; lia.
  by rewrite hl HfE ?eqxx //.
- move=> l; rewrite ltnS leq_eqVlt => /orP[/eqP ->|hl].
    by rewrite HfE ?eqxx // => /(proj1 hnu3) ->; rewrite nth_rcons (v_size v) ltnn eqxx.
  rewrite Hold //; last by clear -hl jM; lia.
  by move=> h0; rewrite nth_rcons (v_size v) ltnS hl; apply: (v_bd v).
- move=> l; rewrite leq_eqVlt => /orP[/eqP ->|hl].
    rewrite nth_rcons (v_size v) ltnn eqxx => /(proj2 hnu3) h0; split=> //.
    by rewrite HfE ?eqxx //; clear -jM; lia.
  rewrite nth_rcons (v_size v) hl => /(v_none v hl)[l0 hl0]; split=> //; rewrite Hold //; clear -hl jM l0; lia.
- by rewrite -rkE hrk.
- have [sr hr] := v_rank v; split=> [|l hl]; first by rewrite size_rcons sr.
  rewrite nth_rcons sr ltnS; move: hl; rewrite leq_eqVlt ltnS => /orP[/eqP ->|hl]; last first.
    by rewrite hl trR ?hr //; clear -hl; lia.
  by rewrite ltnn eqxx mulnS addnC tr2 /= ew2.
Qed.

Lemma loop_ok n : forall j st rs, inv j st rs -> (j + n = M)%N -> ~~ ((0 < j)%N && stops (rs j)) ->
  okor failed (loop st j n) (fun st' => exists k rs', [/\ inv k st' rs', (j <= k <= M)%N, (0 < n)%N -> (j < k)%N & k = M \/ stops (rs' k)]).
Proof.
elim: n => [|n IH] j st rs v e ns; first by exists j, rs; split=> //; [rewrite -e addn0 leqnn|left; rewrite -e addn0].
have jM : (j < M)%N by rewrite -e -addSnnS leq_addr.
rewrite /loop [gmres_loop _ _ _ _ _ _ _ _ _ _ _ _ _ _ _ _ _ _ _ _ _ _ _]/=.
apply: okor_bind (step_ok v jM ns) _ => -[st' stop]; rewrite [(st', stop).1]/= [(st', stop).2]/= => -[rs' v' es].
rewrite es; case: ifP => hs; first by exists j.+1, rs'; split=> //; [rewrite leqnSn|right].
apply: okor_imp (IH j.+1 st' rs' v' _ _) _ => [||st'' [k [rs'' [v'' /andP[h1 h2] h3 h4]]]]; [by rewrite addSnnS|by rewrite hs|].
by exists k, rs''; split=> //; rewrite ?h2 ?andbT // ltnW.
Qed.
End Inv.
End G.
