(* The sweep of general_sketch for the methods orthogonal and hmt. *)
From Coq Require Import String Ascii NArith.
From mathcomp Require Import all_ssreflect all_algebra.
From mathcomp Require Import zify.
From Verif Require Import Py Nd NdThy Ein Utils Tensor Spec LinSpec ChainThy TensorThy TensorThy2 SweepThy RoundThy Sketch SkSpec SkThy1 SkThy2 SkThy4 SkThy5 SkThy6 SkThy7 SkThy8 SkThy10 SkThy12 RecSpec RecThy1 RecThy2 RecThy3 RecThy4 RecThy5.
Set Implicit Arguments. Unset Strict Implicit. Unset Printing Implicit Defensive.
Import GRing.Theory Num.Theory.
Local Open Scope ring_scope.

Section Ext.
Variable R : comRingType.
Lemma lval_ext (X : tensor R) n r f f' L : (forall i c, f i c = f' i c) -> lval X n r f L -> lval X n r f' L.
Proof. by move=> e [h1 h2]; split=> // p c hp hc; rewrite h2 //; apply: eq_sum_idx => i _; rewrite e. Qed.
Lemma lsk_ext n r f f' (X : tensor R) S0 : (forall i c, f i c = f' i c) -> lsk n r (fun _ => f) X S0 -> lsk n r (fun _ => f') X S0.
Proof.
move=> e; elim/tensor_ind': X S0 => [a|s i v|cs|cs|fs c|s Xs IH] S0;
  try by case: S0 => [[A|l]|] //=; apply: lval_ext.
case=> h1 h2; split=> //; move: h2; elim: Xs IH (spreado _ _) {h1} => [|y Xs IHl] IH [|z l] //= [h1 h2].
by split; [apply: IH => //; left | apply: IHl => // y' hy; apply: IH; right].
Qed.
Lemma fits_orthog rank s (cs : seq (nd R)) n X : unsliced (orthog_drm rank s cs) n -> fits (orthog_drm rank s cs) n X.
Proof.
move=> hu; elim/tensor_ind': X => [a|s' i v|cs'|cs'|fs c|s' Xs IH] //=.
elim: Xs IH => [|x Xs IHl] IH //=; split; first by apply: IH; left.
by apply: IHl => y hy; apply: IH; right.
Qed.
End Ext.

Section Sweep.
Variable R : rcfType.
Notation arr := (nd R).
Notation C0 := (C0 R).
Notation one_fun := (@one_fun R).
Notation L0 := (Leaf (Nd [::] [::])).
Variable to_normal : N -> R.
Variable lstsq : arr -> arr -> res arr.
Variable qr : arr -> res (arr * arr).
Hypothesis hl : lstsq_contract lstsq.
Hypothesis qc : qr_contract qr.

Variables (X : tensor R) (g : nat -> seq nat -> nat -> R) (rr : nat -> nat) (rc lc : seq (skt R)).
Variables (lrank rrank : seq nat) (Os : seq arr) (m : method) (cor : nat -> arr -> arr -> Prop).
Hypothesis w : wf_gen false X.
Notation s := (tshape X).
Notation x := (den X).
Notation d := (size (tshape X)).
Notation lr := (nth 0%N lrank).
Hypothesis d1 : (1 < d)%N.
Hypothesis src : size rc = d.-1.
Hypothesis slr : size lrank = d.-1.
Hypothesis srr : size rrank = d.-1.
Hypothesis err : forall mu, (mu < d.-1)%N -> rr mu = nth 0%N (rev rrank) mu.
Hypothesis hR : forall mu, (mu < d.-1)%N -> rsk mu.+1 (rr mu) (fun _ => g mu) X (Some (nth L0 rc mu)).
Hypothesis ps : forall mu, (mu < d)%N -> (0 < nth 0 s mu)%N.
Hypothesis pl : forall mu, (mu < d.-1)%N -> (0 < lr mu)%N.
Hypothesis feas : forall mu, (mu < d.-1)%N -> (lr mu <= at_left lr 1 mu * nth 0 s mu)%N.

Definition Tl (cs : seq arr) : seq nat -> nat -> R := if cs is [::] then one_fun else fun i c => chain cs i 0 c.
Definition Psi_arr cs mu : arr := tab3 (at_left lr 1%N mu) (nth 0%N s mu) (at_right rr 1%N d mu)
  (Psi_of (Tl cs) (at_right g one_fun d mu) s x mu).

(* the step taken by the method, and its result *)
Definition mstep mu (P : arr) : res arr := match m with
              | Streaming => Ok P
              | Orthogonal => do W <- pyget Os mu; orth_step lstsq qr P (Some W)
              | Hmt => orth_step lstsq qr P None
              end.
Definition mpost mu (P Q : arr) : Prop :=
  [/\ nwf Q, nshape Q = [:: at_left lr 1%N mu; nth 0%N s mu; lr mu], left_orth Q &
      cor mu P Q].
(* the columns of Q reproduce P *)
Definition rep mu (P Q : arr) : Prop :=
  reproj Q (fun a k b => get P [:: a; k; b]) (at_left lr 1%N mu) (nth 0%N s mu) (lr mu) (rr mu).
Hypothesis hstep : forall mu cs, (mu < d.-1)%N -> or_linalg (mstep mu (Psi_arr cs mu)) (mpost mu (Psi_arr cs mu)).
Hypothesis hm : m <> Streaming.

Definition good mu cs Q : Prop :=
  if (mu < d.-1)%N then mpost mu (Psi_arr cs mu) Q else Q = Psi_arr cs mu.

Lemma good_shape mu cs Q : (mu < d)%N -> good mu cs Q ->
  nwf Q /\ nshape Q = [:: at_left lr 1%N mu; nth 0%N s mu; at_right lr 1%N d mu].
Proof.
move=> hmu; rewrite /good /at_right; case: ifP => h; first by case.
by move=> ->; rewrite /Psi_arr /at_right h; split=> //; apply: nwf_tab.
Qed.

Definition inv n (cs : seq arr) : Prop := size cs = n /\ forall mu, (mu < n)%N -> good mu (take mu cs) (nth C0 cs mu).

Lemma inv_shape n cs mu : inv n cs -> (n <= d)%N -> (mu < n)%N ->
  nwf (nth C0 cs mu) /\ nshape (nth C0 cs mu) = [:: at_left lr 1%N mu; nth 0%N s mu; at_right lr 1%N d mu].
Proof. by move=> [sc h] hn hmu; apply: (good_shape _ (h mu hmu)); apply: leq_trans hn. Qed.

Lemma inv_links n cs : inv n cs -> (n < d)%N -> links 1 cs (at_left lr 1%N n).
Proof.
move=> h hn; case: (h) => sc _; apply: (@links_seq R (at_left lr 1%N) cs n sc) => mu hmu.
have [h1 h2] := inv_shape h (ltnW hn) hmu; split=> //; rewrite {1}h2 /dim h2 /= /at_right.
by case: ifP => //; clear -hmu hn; lia.
Qed.

Lemma inv_dims n cs : inv n cs -> (n <= d)%N -> [seq dim C 1 | C <- cs] = take n s.
Proof.
move=> h hn; case: (h) => sc _; apply: (@eq_from_nth _ 0%N); rewrite size_map sc ?size_takel // => mu hmu.
by rewrite (nth_map C0) ?sc // nth_take //; have [_ e] := inv_shape h hn hmu; rewrite /dim e.
Qed.

Lemma left_argE n cs : inv n cs -> (0 < n)%N -> (n < d)%N ->
  exists2 l, orthog_next to_normal lrank X cs = Ok l & lsk n (lr n.-1) (fun _ => Tl cs) X (Some l).
Proof.
move=> h n0 hn; case: (h) => sc _; rewrite /orthog_next sc.
set D := orthog_drm lrank s cs.
have hk : (n <= d.-1)%N by clear -hn; lia.
have d2 mu : (mu < n)%N -> dim (nth C0 cs mu) 2 = lr mu.
  move=> hmu; have [_ e] := inv_shape h (ltnW hn) hmu; rewrite /dim e /= /at_right.
  by case: ifP => //; clear -hmu hn; lia.
have pl' mu : (mu < n)%N -> (0 < lr mu)%N by move=> hmu; apply: pl; apply: leq_trans hk.
have hu : unsliced D n.
  move=> mu hmu; rewrite /= d2 //; split=> //; last exact: pl'.
  by rewrite nth_nseq; case: ifP.
have hv : drm_valid D n.
  rewrite /drm_valid /= /ttd_ok /= sc leqnn take_oversize ?sc //; split=> //.
  - by exists (at_left lr 1%N n); apply: inv_links.
  - rewrite (inv_dims h (ltnW hn)) /drm_dims /=; by [].
  - split=> /=; rewrite ?size_nseq ?slr //; move=> mu hmu; rewrite nth_nseq; case: ifP => _; by rewrite subn0.
  by move=> mu hmu; rewrite d2.
have [l -> [sl hL]] := @sketch_leftE _ to_normal false D n X w hn erefl erefl hv (fits_orthog X hu).
have hn1 : (n.-1 < n)%N by clear -n0; lia.
rewrite [bind (Ok _) _]/= (pygetE L0) ?sl //; exists (nth L0 l n.-1) => //.
have := hL n.-1 hn1; rewrite prednK // /drm_cols /=; apply: lsk_ext => i c.
rewrite /left_fun /drm_entry /= prednK // take_oversize ?sc // /Tl nth_nseq if_same.
by case: (cs) sc n0 => [<-|].
Qed.

Lemma psi_stepO cs mu : (mu < d)%N -> inv mu cs ->
  or_linalg (psi_step to_normal lstsq qr X m lrank rrank lc rc Os cs mu) (inv mu.+1).
Proof.
move=> hmu h; case: (h) => sc hg; rewrite /psi_step.
pose lf l := if (0 < mu)%N then lsk mu (lr mu.-1) (fun _ => Tl cs) X l else l = None.
have [l e hlf] : exists2 l, (if (0 < mu)%N then do l <- match m with Streaming => pyget lc mu.-1 | _ => orthog_next to_normal lrank X cs end;
      do r1 <- pyget lrank mu.-1; Ok (Some l, r1) else Ok (None, 1%N)) = Ok (l, at_left lr 1%N mu) & lf l.
  rewrite /lf; case: (posnP mu) => h0; first by exists None => //; rewrite h0.
  have [l el hl'] := left_argE h h0 hmu.
  have -> : match m with Streaming => pyget lc mu.-1 | _ => orthog_next to_normal lrank X cs end = Ok l.
    by rewrite el; case: (m) hm.
  exists (Some l) => //; rewrite /= (pygetE 0%N) ?slr /=; last by clear -h0 hmu; lia.
  by case: (mu) h0.
rewrite e [bind (Ok _) _]/= (rr_pick src [::] (rr := rr)) //=.
rewrite (@psi_ofE R false (Tl cs) (at_right g one_fun d mu)) //; last first.
- exact: (rargE w hR).
- move: hlf; rewrite /lf; case: (posnP mu) => h0; last by case: (mu) h0.
  by move=> ->; move: sc; rewrite h0 => /size0nil ->; apply: lsk_none w.
rewrite [bind (Ok _) _]/= -/(Psi_arr cs mu).
have fin Q : good mu cs Q -> inv mu.+1 (rcons cs Q).
  move=> gQ; split=> [|nu]; first by rewrite size_rcons sc.
  rewrite ltnS leq_eqVlt nth_rcons sc => /orP[/eqP->|hn].
    by rewrite ltnn eqxx -cats1 take_size_cat.
  by rewrite hn -cats1 takel_cat ?sc 1?ltnW //; apply: hg.
case: ifP => hd; last by apply: fin; rewrite /good hd.
apply: or_bind (hstep cs hd) _ => Q hQ; apply: fin; by rewrite /good hd.
Qed.

Lemma sweepE : or_linalg (foldM (psi_step to_normal lstsq qr X m lrank rrank lc rc Os) [::] (iota 0 d)) (inv d).
Proof.
have : (d <= d)%N by []; move: {1 3 4}d; elim=> [|n IH] hn; first by split.
rewrite iotaSr foldM_rcons; apply: or_bind (IH (ltnW hn)) _ => cs hcs; exact: psi_stepO.
Qed.

(* consequences of the invariant *)
Section Inv.
Variable cs : seq arr.
Hypothesis h : inv d cs.
Let f mu i c := chain (take mu.+1 cs) i 0 c : R.

Lemma swp_links : links 1 cs 1.
Proof.
have [sc _] := h; have e1 : at_left (at_right lr 1%N d) 1%N d = 1%N.
  by rewrite /at_left /at_right; case: (d) => // n; rewrite ltnn.
rewrite -[X in links _ _ X]e1; apply: (@links_seq R (at_left (at_right lr 1%N d) 1%N) cs d sc) => mu hmu.
have [h1 h2] := inv_shape h (leqnn _) hmu; split=> //; rewrite {1}h2 /dim h2 /=; congr [:: _; _; _].
by case: mu hmu {h1 h2} => //= mu hmu; rewrite /at_right; case: ifP => //; clear -hmu; lia.
Qed.
Lemma swp_dims : [seq dim C 1 | C <- cs] = s.
Proof. by rewrite (inv_dims h) // take_size. Qed.
Lemma swp_rank mu : (mu < d.-1)%N -> dim (nth C0 cs mu) 2 = lr mu.
Proof.
move=> hmu; have [|_ e] := inv_shape h (leqnn _) (_ : mu < d)%N; first by clear -hmu; lia.
by rewrite /dim e /= /at_right hmu.
Qed.
Lemma swp_orth mu : (mu < d.-1)%N -> left_orth (nth C0 cs mu).
Proof.
move=> hmu; have [_ hg] := h; have := hg mu; rewrite /good hmu => -[]//; by clear -hmu; lia.
Qed.
Lemma TlE mu : (mu <= d)%N -> Tl (take mu cs) = at_left f one_fun mu.
Proof.
have [sc _] := h; case: mu => [|mu] hmu; first by rewrite take0.
rewrite /Tl /=; by case e : (take mu.+1 cs) => [|C l]; [move: (congr1 size e); rewrite size_takel ?sc | rewrite -e].
Qed.
Lemma swp_last a k : (a < lr d.-2)%N -> (k < nth 0 s d.-1)%N ->
  get (nth C0 cs d.-1) [:: a; k; 0%N] = Psi_of (f d.-2) one_fun s x d.-1 a k 0.
Proof.
move=> ha hk; have [_ hg] := h; have hd : (d.-1 < d)%N by clear -d1; lia.
have el A (u : nat -> A) z : at_left u z d.-1 = u d.-2 by case: (d) d1 => [|[|n]].
have := hg d.-1 hd; rewrite /good ltnn => ->; rewrite /Psi_arr get_tab3 ?el //.
  by rewrite TlE ?el /at_right ?ltnn // ltnW.
by rewrite /at_right ltnn.
Qed.

(* Omega_of with the left matrices of the computed train *)
Lemma swp_omega mu c b : (mu < d.-1)%N -> (c < lr mu)%N -> Omega_of (f mu) (g mu) s x mu c b =
  \sum_(0 <= a < at_left lr 1%N mu) \sum_(0 <= k < nth 0%N s mu) get (nth C0 cs mu) [:: a; k; c] *
     Psi_of (at_left f one_fun mu) (g mu) s x mu a k b.
Proof.
move=> hmu hc; have hmd : (mu < d)%N by clear -hmu; lia.
have [sc _] := h.
have ts : take mu.+1 s = rcons (take mu s) (nth 0%N s mu) by rewrite -take_nth.
rewrite /Omega_of ts sum_idx_rcons.
have fE i k : inb (take mu s) i -> f mu (rcons i k) c = \sum_(0 <= a < at_left lr 1%N mu) at_left f one_fun mu i a * get (nth C0 cs mu) [:: a; k; c].
  move=> hi; have si : size i = mu by rewrite (inb_size hi) size_takel // ltnW.
  rewrite /f (take_nth C0) ?sc // (chain_rcons _ (rec_links swp_links swp_dims swp_rank hmd)) ?swp_rank //.
    rewrite -TlE ?(ltnW hmd) // /Tl; apply: eq_big_nat => a ha; congr (_ * _).
    case e : (take mu cs) => [|C l] //=; have m0 : mu = 0%N by move: (congr1 size e); rewrite size_takel ?sc // ltnW.
    by move: ha si; rewrite m0 /= => ha /size0nil ->; rewrite /SkSpec.one_fun; case: a ha.
  by rewrite size_takel ?sc // ltnW.
rewrite (eq_sum_idx (g := fun i => \sum_(0 <= a < at_left lr 1%N mu) \sum_(0 <= k < nth 0%N s mu)
    get (nth C0 cs mu) [:: a; k; c] * sum_idx (drop mu.+1 s) (fun j => at_left f one_fun mu i a * x (i ++ k :: j) * g mu j b))).
  rewrite sum_idx_big; apply: eq_bigr => a _; rewrite sum_idx_big; apply: eq_bigr => k _.
  by rewrite sum_idxZ.
move=> i hi; rewrite exchange_big_nat; apply: eq_big_nat => k hk /=.
rewrite (eq_sum_idx (g := fun j => \sum_(0 <= a < at_left lr 1%N mu) get (nth C0 cs mu) [:: a; k; c] * (at_left f one_fun mu i a * x (i ++ k :: j) * g mu j b))).
  by rewrite sum_idx_big; apply: eq_bigr => a _; rewrite sum_idxZ.
move=> j hj; rewrite fE // cat_rcons !big_distrl; apply: eq_bigr => a _ /=; by rewrite !mulrA [X in X * _ * _]mulrC.
Qed.

Lemma swp_cor mu : (mu < d.-1)%N -> cor mu (Psi_arr (take mu cs) mu) (nth C0 cs mu).
Proof.
move=> hmu; have hmd : (mu < d)%N by clear -hmu; lia.
by have [_ hg] := h; have := hg mu hmd; rewrite /good hmu => -[].
Qed.
Lemma swp_psi mu a k b : (mu < d.-1)%N -> (a < at_left lr 1 mu)%N -> (k < nth 0 s mu)%N -> (b < rr mu)%N ->
   get (Psi_arr (take mu cs) mu) [:: a; k; b] = Psi_of (at_left f one_fun mu) (g mu) s x mu a k b.
Proof.
move=> hmu ha hk hb; have hmd : (mu < d)%N by clear -hmu; lia.
by rewrite /Psi_arr /at_right hmu get_tab3 // TlE // ltnW.
Qed.

Lemma swp_solve mu a k b : rep mu (Psi_arr (take mu cs) mu) (nth C0 cs mu) -> (mu < d.-1)%N -> (a < at_left lr 1 mu)%N -> (k < nth 0 s mu)%N -> (b < rr mu)%N ->
  \sum_(0 <= c < lr mu) get (nth C0 cs mu) [:: a; k; c] * Omega_of (f mu) (g mu) s x mu c b =
  Psi_of (at_left f one_fun mu) (g mu) s x mu a k b.
Proof.
move=> rp hmu ha hk hb; have pE a' k' b' := @swp_psi mu a' k' b' hmu.
have := rp a k b ha hk hb; rewrite pE // => <-; apply: eq_big_nat => c hc; congr (_ * _).
rewrite swp_omega //; apply: eq_big_nat => a' ha'; apply: eq_big_nat => k' hk'; by rewrite pE.
Qed.

Lemma swp_proj i k : inb (take d.-1 s) i -> (k < nth 0 s d.-1)%N ->
  chain cs (rcons i k) 0 0 = \sum_(0 <= c < lr d.-2) chain (take d.-1 cs) i 0 c *
     sum_idx (take d.-1 s) (fun i' => chain (take d.-1 cs) i' 0 c * x (rcons i' k)).
Proof.
move=> hi hk; rewrite (rec_proj d1 swp_links swp_dims swp_rank swp_last hi hk).
by rewrite /f prednK //; clear -d1; lia.
Qed.

Lemma swp_exact (M : nat -> nat -> seq nat -> R) : (forall mu, (mu < d.-1)%N -> rep mu (Psi_arr (take mu cs) mu) (nth C0 cs mu)) ->
  (forall mu i j, (mu < d.-1)%N -> inb (take mu.+1 s) i -> inb (drop mu.+1 s) j ->
    x (i ++ j) = \sum_(0 <= b < rr mu) sum_idx (drop mu.+1 s) (fun j' => x (i ++ j') * g mu j' b) * M mu b j) ->
  forall i, inb s i -> chain cs i 0 0 = x i.
Proof.
move=> hcor range; apply: (@recover R s x f g lr rr cs M d1 swp_links swp_dims swp_rank _ range swp_last).
by move=> mu a k b hmu ha hk hb; apply: swp_solve => //; apply: hcor.
Qed.
End Inv.
End Sweep.
