(* Property C68: rounding errors of to_numpy, gather and dot. *)
From Coq Require Import String Ascii.
From mathcomp Require Import all_ssreflect all_algebra.
From mathcomp Require Import zify.
From Verif Require Import Py Nd NdThy Ein Utils Tensor Spec ChainThy TensorThy TensorThy2 GatherThy DotThy FlModel FlSpec FlThy1 FlThy2 FlThy3 FlThy4 FlThy5 FlThy6.
Set Implicit Arguments. Unset Strict Implicit. Unset Printing Implicit Defensive.
Import GRing.Theory Num.Theory Order.TTheory.
Local Open Scope ring_scope.

Section Rounding.
Variable R : realDomainType.
Variable u : R.
Hypothesis u0 : 0 <= u.
Notation arr := (nd R).
Notation tensor := (tensor R).
Implicit Types (X : tensor) (a b : arr) (v : seq R).

(* Every entry of X.to_numpy() is off by at most (1+u)^n - 1 times the entry of the tensor whose
   stored numbers are the absolute values of those of X; n = roundings X. *)
Theorem C68_to_numpy X a : wf X -> fl_to_numpy u X a ->
  [/\ nwf a, nshape a = tshape X & forall i, inb (tshape X) i ->
     `|get a i - den X i| <= ((1 + u) ^+ roundings X - 1) * den (tabs X) i].
Proof.
by move=> w h; have [wa sa ha] := fl_to_numpyP u0 w h; split=> // i hi; have [] := ha i hi.
Qed.

(* The same bound for the numbers gather returns *)
Theorem C68_gather X idx N v : wf X -> (0 < size (tshape X))%N -> wf_inds (tshape X) idx N -> fl_gather u X idx v ->
  size v = N /\ forall k, (k < N)%N ->
    `|nth 0 v k - den X (column idx k)| <= ((1 + u) ^+ roundings X - 1) * den (tabs X) (column idx k).
Proof.
move=> w hp hi; case: X w hp hi => // [s inds vals|cs|cs] w hp hi.
- have /= := gatherE w hi hp isT => -> [<-].
  split; first by rewrite size_map size_iota.
  move=> k hk; rewrite /rows_at.
  by rewrite (nth_map 0%N) ?size_iota // nth_iota // add0n subrr normr0 expr0 subrr mul0r.
- by move=> h; have [sv hv] := fl_tt_gatherP u0 w hi h; split=> // k hk; have [] := hv k hk.
by move=> h; have [sv hv] := fl_cp_gatherP u0 w hi h; split=> // k hk; have [] := hv k hk.
Qed.

(* two evaluations, on other machines or with another order of the sums, differ by at most twice that *)
Theorem C68_two_machines X a b : wf X -> fl_to_numpy u X a -> fl_to_numpy u X b ->
  forall i, inb (tshape X) i ->
    `|get a i - get b i| <= 2%:R * ((1 + u) ^+ roundings X - 1) * den (tabs X) i.
Proof.
move=> w ha hb i hi; have [_ _ /(_ i hi) ea] := C68_to_numpy w ha; have [_ _ /(_ i hi) eb] := C68_to_numpy w hb.
have -> : get a i - get b i = (get a i - den X i) - (get b i - den X i) by rewrite opprB addrA subrK.
by apply: le_trans (ler_norm_sub _ _) _; rewrite -mulrA mulr_natl mulr2n ler_add.
Qed.

(* ... and so do gather and to_numpy *)
Theorem C68_gather_to_numpy X idx N v a : wf X -> (0 < size (tshape X))%N -> wf_inds (tshape X) idx N ->
  fl_gather u X idx v -> fl_to_numpy u X a -> forall k, (k < N)%N ->
    `|nth 0 v k - get a (column idx k)| <= 2%:R * ((1 + u) ^+ roundings X - 1) * den (tabs X) (column idx k).
Proof.
move=> w hp hi hv ha k hk; have [_ /(_ k hk) ev] := C68_gather w hp hi hv.
have hc : inb (tshape X) (column idx k) by case/and3P: hi => _ _ /allP; apply; rewrite mem_iota.
have [_ _ /(_ _ hc) ea] := C68_to_numpy w ha; set c := column idx k in ev ea hc *.
have -> : nth 0 v k - get a c = (nth 0 v k - den X c) - (get a c - den X c) by rewrite opprB addrA subrK.
by apply: le_trans (ler_norm_sub _ _) _; rewrite -mulrA mulr_natl mulr2n ler_add.
Qed.


(* Stored numbers that are themselves inexact (kept in a lower precision, computed with rounding):
   the entries of the tensor they represent are off by at most (1+u)^n - 1 times the entry of the
   absolute values *)
Theorem C68_perturbed X X' n : wf X -> perturbed u n X X' ->
  [/\ wf X', tshape X' = tshape X & forall i, inb (tshape X) i ->
    `|den X' i - den X i| <= ((1 + u) ^+ n - 1) * den (tabs X) i].
Proof.
by move=> w h; have [w' s' _ d'] := perturbedP u0 w h; split=> // i hi; have [] := d' i hi.
Qed.

(* ... and the roundings of to_numpy add to that *)
Theorem C68_perturbed_to_numpy X X' n a : wf X -> perturbed u n X X' -> fl_to_numpy u X' a ->
  [/\ nwf a, nshape a = tshape X & forall i, inb (tshape X) i ->
    `|get a i - den X i| <= ((1 + u) ^+ (n + roundings X) - 1) * den (tabs X) i].
Proof.
move=> w hp h; have [w' s' r' d'] := perturbedP u0 w hp.
have [wa sa ha] := fl_to_numpyP u0 w' h; rewrite s' in sa ha; split=> // i hi.
have [_ e1] := ha i hi; have [_ e2] := d' i hi; rewrite r' in e1.
have [wt st tt rt] := tabsP true X.
have [_ _ _ dt] := perturbedP u0 (etrans wt w) (perturbed_tabs hp).
have e3 : den (tabs X') i <= (1 + u) ^+ n * den (tabs X) i.
  rewrite st tt in dt; exact: le_trans (ler_norm _) (apx_size (dt i hi)).
have -> : get a i - den X i = (get a i - den X' i) + (den X' i - den X i) by rewrite addrA subrK.
apply: le_trans (ler_norm_add _ _) _; apply: le_trans (ler_add e1 e2) _.
apply: le_trans (ler_add (ler_wpmul2l (growth_ge0 u0 _) e3) (lexx _)) _.
by rewrite le_eqVlt; apply/orP; left; apply/eqP; rewrite /growth mulrA -mulrDl exprD; congr (_ * _);
   rewrite mulrBl mul1r addrA subrK mulrC.
Qed.

(* X * c, with one rounding per product, and then to_numpy *)
Theorem C68_scaled X Y (c : R) a : wf X -> fl_tmul u X c Y -> fl_to_numpy u Y a ->
  [/\ nwf a, nshape a = tshape X & forall i, inb (tshape X) i ->
    `|get a i - c * den X i| <= ((1 + u) ^+ (roundings X).+1 - 1) * (`|c| * den (tabs X) i)].
Proof.
move=> w [Z eZ hp] h; have [Z' eZ' [wZ sZ dZ]] := tmulE c w; move: eZ'; rewrite eZ => -[?]; subst Z'.
have [wa sa ha] := C68_perturbed_to_numpy wZ hp h; rewrite sZ in sa ha; split=> // i hi.
have [et er] := tmul_tabs eZ; have [wt st _ _] := tabsP true X.
have [Z' eZ' [_ _ dZ']] := tmulE `|c| (etrans wt w); move: eZ'; rewrite et => -[?]; subst Z'.
by rewrite -dZ // -dZ' ?st // -add1n -er; exact: ha.
Qed.

(* dot of two trains, relative to the inner product of the absolute values *)
Theorem C68_dot cs1 cs2 (y : R) : wf_tt cs1 -> wf_tt cs2 ->
  tshape (TT cs1 : tensor) = tshape (TT cs2 : tensor) -> fl_tt_dot u cs1 cs2 y ->
  `|y - inner (TT cs1) (TT cs2)| <=
    ((1 + u) ^+ (dim (head (Nd [::] [::]) cs1) 1 + dot_steps (behead cs1) (behead cs2)) - 1) *
    inner (tabs (TT cs1)) (tabs (TT cs2)).
Proof. by move=> w1 w2 e h; have [] := fl_tt_dotP u0 w1 w2 e h. Qed.

(* stored numbers that are all nonnegative: a bound on the relative error of every entry *)
Theorem C68_nonnegative X a : wf X -> tabs X = X -> fl_to_numpy u X a ->
  forall i, inb (tshape X) i -> `|get a i - den X i| <= ((1 + u) ^+ roundings X - 1) * den X i.
Proof. by move=> w e h i hi; have [_ _ /(_ i hi)] := C68_to_numpy w h; rewrite e. Qed.

(* (1+u)^n - 1 is at most nu/(1-nu) *)
Theorem C68_gamma n : ((1 + u) ^+ n - 1) * (1 - n%:R * u) <= n%:R * u.
Proof.
suff h : (1 + u) ^+ n * (1 - n%:R * u) <= 1.
  by rewrite mulrBl mul1r ler_subl_addr [X in _ <= X]addrC subrK.
elim: n => [|n IH]; first by rewrite expr0 mul0r subr0 mul1r.
apply: le_trans IH; rewrite exprSr -mulrA; apply: ler_wpmul2l; first exact: gr_ge0.
have -> : n.+1%:R * u = n%:R * u + u by rewrite mulrS mulrDl mul1r addrC.
rewrite mulrC.
set a := n%:R * u; have a0 : 0 <= a by rewrite mulr_ge0 // ler0n.
have -> : (1 - (a + u)) * (1 + u) = (1 - a) - (a + u) * u.
  rewrite mulrDr mulr1 mulrBl mul1r; move: ((a + u) * u) => z.
  by rewrite addrA opprD addrA subrK.
by rewrite ler_subl_addr ler_addl mulr_ge0 // addr_ge0.
Qed.

(* the result exists, whatever function of the exact result the rounding is *)
Theorem C68_defined (fl : R -> R) : (forall x, `|fl x - x| <= u * `|x|) ->
  [/\ forall X, wf X -> exists a, fl_to_numpy u X a,
      forall X idx N, wf X -> has_gather X -> wf_inds (tshape X) idx N -> (0 < size (tshape X))%N ->
        exists v, fl_gather u X idx v &
      forall cs1 cs2, wf_tt cs1 -> wf_tt cs2 -> exists y, fl_tt_dot u cs1 cs2 y].
Proof.
move=> h; split=> [X w|X idx N w hg hi hp|cs1 cs2 /andP[w1 _] /andP[w2 _]].
- exact: (to_numpy_ex u0 h w).
- exact: (gather_ex h w hg hi hp).
exact: (dot_ex h w1 w2).
Qed.
End Rounding.

(* no rounding (u = 0): the results of the exact model, in which all other properties are stated *)
Section Exact.
Variable R : realDomainType.
Notation tensor := (tensor R).
Theorem C68_exact (X : tensor) a : wf X -> fl_to_numpy 0 X a -> to_numpy X = Ok a.
Proof.
move=> w h; have [wa sa ga] := C68_to_numpy (lexx 0) w h; have [b eb [wb sb gb]] := to_numpyE w.
suff -> : a = b by [].
apply: nd_ext => //; first by rewrite sa sb.
move=> i; rewrite sa => hi; rewrite gb //; apply/eqP; rewrite -subr_eq0 -normr_le0.
by have := ga i hi; rewrite addr0 expr1n subrr mul0r.
Qed.
Theorem C68_exact_gather (X : tensor) idx N v : wf X -> (0 < size (tshape X))%N -> wf_inds (tshape X) idx N ->
  fl_gather 0 X idx v -> gather X idx = Ok v.
Proof.
move=> w hp hi h; have [sv hv] := C68_gather (lexx 0) w hp hi h.
have hg : has_gather X by case: (X) h.
have -> : gather X idx = Ok (rows_at idx N (den X)).
  exact: gatherE w hi hp hg.
congr Ok; apply: (@eq_from_nth _ 0); first by rewrite size_map size_iota.
move=> k; rewrite size_map size_iota => hk; rewrite (nth_map 0%N) ?size_iota // nth_iota // add0n.
apply/eqP; rewrite eq_sym -subr_eq0 -normr_le0.
by have := hv k hk; rewrite addr0 expr1n subrr mul0r.
Qed.
Theorem C68_exact_dot (cs1 cs2 : seq (nd R)) y : wf_tt cs1 -> wf_tt cs2 ->
  tshape (TT cs1 : tensor) = tshape (TT cs2 : tensor) -> fl_tt_dot 0 cs1 cs2 y -> tt_dot cs1 cs2 = Ok y.
Proof.
move=> w1 w2 e h; rewrite tt_dotE //; congr Ok; apply/eqP; rewrite eq_sym -subr_eq0 -normr_le0.
by have := C68_dot (lexx 0) w1 w2 e h; rewrite addr0 expr1n subrr mul0r.
Qed.
End Exact.

(* The bound cannot be improved: for every n there is a tensor whose evaluation, rounding every
   operation up by the factor 1 + u, is off by exactly that much. *)
Section Sharp.
Variable R : realDomainType.
Variable u : R.
Hypothesis u0 : 0 <= u.
Notation arr := (nd R).
Notation tensor := (tensor R).
Definition ones (m : nat) (x : R) : arr := Nd (nseq m 1%N) [:: x].
Lemma prods_ones m : prods (nseq m 1%N) = 1%N. Proof. by elim: m => //= m ->. Qed.
Lemma get_ones m x i : inb (nseq m 1%N) i -> get (ones m x) i = x.
Proof.
move=> h; have := ravel_lt h; rewrite prods_ones /get /= => h1.
by have -> : ravel (nseq m 1%N) i = 0%N by lia.
Qed.
Lemma nwf_ones m x : nwf (ones m x). Proof. by rewrite /nwf /= prods_ones. Qed.
Lemma nseq_rcons (T : Type) m (x : T) : nseq m.+1 x = rcons (nseq m x) x.
Proof. by elim: m => //= m ->. Qed.
Lemma ones_step m x : fl_tt_step u (ones m.+1 x) (ones 3 1) (ones m.+2 ((1 + u) * x)).
Proof.
have el : lead (ones m.+1 x) = nseq m 1%N by apply: (@lead_rcons _ _ _ 1%N); rewrite /= -nseq_rcons.
split; rewrite ?nwf_ones ?el //; first by rewrite -[[:: _; _]]/(nseq 2 1%N) -nseqD addn2.
move=> p k l hp; rewrite /dim /= !ltnS !leqn0 => /eqP -> /eqP ->.
have ip : inb (nseq m.+2 1%N) (p ++ [:: 0; 0])%N by rewrite -addn2 nseqD; apply: inb2.
rewrite get_ones //; exists (fun=> (1 + u) * x); last exact: (fl_one u _ 0%N).
move=> j; rewrite inE => /eqP ->; rewrite /rnd !get_ones //.
  by rewrite mulr1 mulrDl mul1r addrAC subrr add0r normrM (ger0_norm u0).
by rewrite nseq_rcons inb_rcons ?(inb_size hp) // hp.
Qed.
Lemma ones_fold n m x : fl_fold (fl_tt_step u) (ones m.+1 x) (nseq n (ones 3 1)) (ones (n + m.+1) ((1 + u) ^+ n * x)).
Proof.
elim: n m x => [|n IH] m x; first by rewrite expr0 mul1r.
exists (ones m.+2 ((1 + u) * x)); first exact: ones_step.
by rewrite exprSr -mulrA addSnnS; exact: IH.
Qed.
Theorem C68_sharp n : exists (X : tensor) a i,
  [/\ wf X, roundings X = n, inb (tshape X) i, fl_to_numpy u X a &
      den (tabs X) i = 1 /\ `|get a i - den X i| = (1 + u) ^+ n - 1].
Proof.
pose C := ones 3 1; pose cs := nseq n.+1 C.
have lk m : links 1 (nseq m C) 1 by elim: m => //= m ->; rewrite nwf_ones.
have wc : wf_tt cs by rewrite /wf_tt lk.
have sh : [seq dim C 1 | C <- cs] = nseq n.+1 1%N by rewrite map_nseq.
have ch m : chain (nseq m C) (nseq m 0%N) 0 0 = 1.
  by elim: m => //= m IH; rewrite big_nat1 IH mulr1.
have ea : nabs C = C by rewrite /nabs /= normr1.
exists (TT cs), (ones n.+1 ((1 + u) ^+ n)), (nseq n.+1 0%N).
have hi : inb (nseq n.+1 1%N) (nseq n.+1 0%N) by elim: (n.+1).
split=> //.
- by rewrite /= map_nseq; elim: (n) => //= m ->.
- by rewrite /= map_nseq in sh *; elim: (n).
- exists (ones 2 1), (ones (n + 2) ((1 + u) ^+ n * 1)); split.
  + exact: reshapeE.
  + exact: (ones_fold n 1 1).
  have -> : lead (ones (n + 2) ((1 + u) ^+ n * 1)) = nseq n.+1 1%N.
    by apply: (@lead_rcons _ _ _ 1%N); rewrite /= -nseq_rcons addn2.
  by rewrite reshapeE ?prods_ones //= mulr1.
split.
  by rewrite -[den _ _]/(chain (map (@nabs R) cs) _ 0 0) map_nseq ea ch.
rewrite get_ones // -[den _ _]/(chain cs _ 0 0) ch ger0_norm // subr_ge0; exact: gr_ge1.
Qed.
End Sharp.

Print Assumptions C68_to_numpy.
Print Assumptions C68_gather.
Print Assumptions C68_two_machines.
Print Assumptions C68_gather_to_numpy.
Print Assumptions C68_perturbed.
Print Assumptions C68_perturbed_to_numpy.
Print Assumptions C68_scaled.
Print Assumptions C68_dot.
Print Assumptions C68_nonnegative.
Print Assumptions C68_gamma.
Print Assumptions C68_defined.
Print Assumptions C68_exact.
Print Assumptions C68_exact_gather.
Print Assumptions C68_exact_dot.
Print Assumptions C68_sharp.

(* a 2 x 2 train of rank 2 with entries of both signs, evaluated with rounding: to_numpy, gather of
   the entries (1,0), (0,1) and dot with itself have results *)
Example C68_nonvacuous :
  let cs := [:: Nd [:: 1; 2; 2]%N [:: 1; -2%:R; 3%:R; 1]; Nd [:: 2; 2; 1]%N [:: 1; 0; -1; 2%:R]] : seq (nd rat) in
  let u := 1 / 8%:R : rat in let idx := [:: [:: 1; 0]; [:: 0; 1]]%N in
  [/\ wf (TT cs), 0 < u & wf_inds (tshape (TT cs : tensor rat)) idx 2] /\
  exists a v y, [/\ fl_to_numpy u (TT cs) a, fl_gather u (TT cs) idx v & fl_tt_dot u cs cs y].
Proof.
move=> cs u idx; split; first by split.
have fP : forall x : rat, `|x * (1 + u) - x| <= u * `|x|.
  by move=> x; rewrite mulrDr mulr1 addrAC subrr add0r normrM mulrC.
have [h1 h2 h3] := C68_defined (isT : 0 <= u) fP.
have w : wf (TT cs) by [].
have [a ha] := h1 (TT cs) w; have [v hv] := h2 (TT cs) idx 2%N w isT isT isT; have [y hy] := h3 cs cs w w.
by exists a, v, y.
Qed.

(* the same train times 3, with one rounding error in the first number of the last core *)
Example C68_nonvacuous_scaled :
  let cs := [:: Nd [:: 1; 2; 2]%N [:: 1; -2%:R; 3%:R; 1]; Nd [:: 2; 2; 1]%N [:: 1; 0; -1; 2%:R]] : seq (nd rat) in
  let cs' := [:: Nd [:: 1; 2; 2]%N [:: 1; -2%:R; 3%:R; 1];
                 Nd [:: 2; 2; 1]%N [:: 27%:R / 8%:R; 0; -3%:R; 6%:R]] : seq (nd rat) in
  let u := 1 / 8%:R : rat in
  [/\ wf (TT cs), fl_tmul u (TT cs) 3%:R (TT cs') & exists a, fl_to_numpy u (TT cs') a].
Proof.
move=> cs cs' u; split=> //.
  exists (TT [:: nth (Nd [::] [::]) cs 0; Nd [:: 2; 2; 1]%N [:: 1 * 3%:R; 0 * 3%:R; -1 * 3%:R; 2%:R * 3%:R]]) => //.
  exists [:: 0; 1]%N => //; split; first by split=> // j; rewrite /growth expr0 subrr mul0r subrr normr0.
  by split=> //; split=> // -[|[|[|[|j]]]] //; rewrite /= !nth_nil subrr normr0 mulr0.
have fP : forall x : rat, `|x * (1 + u) - x| <= u * `|x|.
  by move=> x; rewrite mulrDr mulr1 addrAC subrr add0r normrM mulrC.
have [h1 _ _] := C68_defined (isT : 0 <= u) fP.
exact: (h1 (TT cs') isT).
Qed.
