(* C56: TensorTrain.orthogonalize and TensorTrain.round -- what is shared, what is copied. *)
From mathcomp Require Import all_ssreflect all_algebra.
From mathcomp.zify Require Import zify.
From Verif Require Import Py Nd Utils Tensor TensorNum Spec LinSpec RoundSpec NdThy Heap HeapSpec HeapThy1 HeapThy2 HeapThy3 HeapThy4 HeapThy5 HeapThy6 RoundThy RoundThy2 Prop_Num Prop_Heap LinExist.
Set Implicit Arguments. Unset Strict Implicit. Unset Printing Implicit Defensive.
Import GRing.Theory Num.Theory.
Local Open Scope ring_scope.

Section Props.
Variable R : rcfType.
Notation arr := (nd R).
Notation tensor := (tensor R).
Notation heap := (heap R).
Implicit Types (h : heap) (v : view) (o : nat) (X Y : tensor).
Variable qr : arr -> res (arr * arr).
Variable svd : arr -> res (arr * arr * arr).

Lemma orth_one (cs cs' : seq arr) : size cs = 1%N -> tt_orthogonalize qr cs = Ok cs' -> cs' = cs.
Proof. by case: cs => [|C [|]] //= _ [<-]. Qed.
Lemma round_one (cs cs' : seq arr) eps m b : size cs = 1%N -> tt_round qr svd cs eps m b = Ok cs' -> cs' = cs.
Proof.
case: cs => [|C [|]] // _; rewrite /tt_round (_ : (if b then _ else _) = Ok [:: C]); last by case: b.
by cbn [bind]; case: (process_tt_rank _ _ _) => //= rk [<-].
Qed.
Lemma wf_all_nwf (cs : seq arr) : wf_tt cs -> all (@nwf R) cs.
Proof.
rewrite /wf_tt; case/andP => _; move: {-1}1%N => b0; move: {1}1%N => r; elim: cs r => [|C l IH] r //= /and3P[wC _ hl]; by rewrite wC (IH _ hl).
Qed.

(* X.orthogonalize() and X.round(...) return a new train for the result of the value-level
   function (described by C12, C13 and C14), or raise when it does *)
Theorem C56_orthogonalize n h o cs : qr_contract qr -> wf_tt cs -> pos_tt cs ->
  val n h o = Some (TT cs) ->
  yields (exec n h (CSweep (tt_orthogonalize qr) o)) (do out <- tt_orthogonalize qr cs; Ok (TT out)).
Proof.
move=> qrP w p V; apply: refs_yields; apply: (op_sweepE V) => cs' E.
case: eqP => [s1|_]; first exact: orth_one s1 E.
by have := C12_orthogonalize qrP w p; rewrite E /= => -[/wf_all_nwf].
Qed.

Theorem C56_round n h o cs eps m b rk : qr_contract qr -> svd_contract svd -> round_args cs m b ->
  (if m is Some m' then process_tt_rank m' (tshape (TT cs)) true = Ok rk else rk = tt_rank cs) ->
  val n h o = Some (TT cs) ->
  yields (exec n h (CSweep (fun l => tt_round qr svd l eps m b) o))
         (do out <- tt_round qr svd cs eps m b; Ok (TT out)).
Proof.
move=> qrP svdP ra Er V; apply: refs_yields; apply: (op_sweepE (f := fun l => tt_round qr svd l eps m b) V) => cs' E.
case: eqP => [s1|_]; first exact: round_one s1 E.
by have := C13_round eps qrP svdP ra Er; rewrite E /= => -[/wf_all_nwf].
Qed.

(* With two or more modes the result shares no memory with X: later assignments to arrays
   that existed before do not show in the result, and assignments to the arrays of the
   result do not show in tensors that existed before. *)
Theorem C56_sweep_independent (f : seq arr -> res (seq arr)) n h o cs h1 p :
  val n h o = Some (TT cs) -> (1 < size cs)%N ->
  exec n h (CSweep f o) = Ok (h1, AObj R p) ->
  forall v k x h2 ans, exec n h1 (CWrite v k x) = Ok (h2, ans) ->
  ((vbuf v < size (bufs h))%N -> forall Y, val n h1 p = Some Y -> val n h2 p = Some Y) /\
  ((vbuf v, nth 0%N (voff v) k) \in cells n h1 p ->
      forall m o' Z, val m h o' = Some Z -> val m h2 o' = Some Z).
Proof.
move=> V s2 /ret_inv [p' [E [Ep]]]; rewrite -{}Ep in E.
move=> v k x h2 ans /=; case W: (op_write h1 v k x) => [h3|] //= [<- _].
have F : fresh (size (bufs h)) (cells n h1 p).
  case: (n) V => [|n0] // /val_inv [l [vs [Eo El Er]]].
  have Es := opts_size Er; rewrite size_map in Es.
  apply: (sweep_fresh _ Eo _ _ E); first by rewrite size_map; move: s2; rewrite Es; case: (vs) => [|? [|]].
  by move=> vs'; rewrite El size_map => -[<-].
have K := kp_sweep E.
split=> [Hv Y VY|Hc m o' Z VZ].
  apply: val_write W _ VY; apply/negP => /(allP F) /=; by rewrite leqNgt Hv.
apply: val_write W _ (val_ext K.1 VZ); rewrite (cells_ext K.1 VZ); apply/negP => /(old_cells VZ) /=.
by rewrite ltnNge (allP F _ Hc).
Qed.

(* With a single mode both store the core of X itself in the result: an assignment to an
   element of it shows in X. *)
Theorem C56_sweep_one_mode_refuted :
  (exists h o p v k x h1 h2 ans X, [/\ val 1 h o = Some X,
      exec 1 h (CSweep (tt_orthogonalize qr) o) = Ok (h1, AObj R p),
      (vbuf v, nth 0%N (voff v) k) \in cells 1 h1 p,
      exec 1 h1 (CWrite v k x) = Ok (h2, ans) & val 1 h2 o <> Some X]) /\
  (exists h o p v k x h1 h2 ans X, [/\ val 1 h o = Some X,
      exec 1 h (CSweep (fun l => tt_round qr svd l None None false) o) = Ok (h1, AObj R p),
      (vbuf v, nth 0%N (voff v) k) \in cells 1 h1 p,
      exec 1 h1 (CWrite v k x) = Ok (h2, ans) & val 1 h2 o <> Some X]).
Proof.
pose w := View 0 [:: 1; 2; 1]%N [:: 0; 1]%N.
pose h := Heap [:: [:: 0; 0 : R]] [:: [:: w]] [::] [:: OTT [:: 2]%N [::] 0] [::].
pose h1 := Heap [:: [:: 0; 0 : R]] [:: [:: w]; [:: w]] [::] [:: OTT [:: 2]%N [::] 0; OTT [:: 2]%N [::] 1] [::].
pose h2 := Heap [:: [:: 0; 1 : R]] [:: [:: w]; [:: w]] [::] [:: OTT [:: 2]%N [::] 0; OTT [:: 2]%N [::] 1] [::].
have ne : (Some (TT [:: Nd [:: 1; 2; 1]%N [:: 0; 1 : R]]) : option tensor) <> Some (TT [:: Nd [:: 1; 2; 1]%N [:: 0; 0]]).
  by case=> /eqP; rewrite oner_eq0.
split; exists h, 0%N, 1%N, w, 1%N, 1, h1, h2, (ANone R), (TT [:: Nd [:: 1; 2; 1]%N [:: 0; 0 : R]]).
  by split.
by split.
Qed.
End Props.

(* non-vacuity: a train with two cores over any real closed field, with routines that
   always return *)
Section Example_.
Variable R : rcfType.
Example C56_sweep_example :
  let w1 := View 0 [:: 1; 2; 1]%N [:: 0; 1]%N in let w2 := View 1 [:: 1; 2; 1]%N [:: 0; 1]%N in
  let h := Heap [:: [:: 3; 4 : R]; [:: 1; 0]] [:: [:: w1; w2]] [::] [:: OTT [:: 2; 2]%N [:: 1]%N 0] [::] in
  let cs := [:: Nd [:: 1; 2; 1]%N [:: 3; 4 : R]; Nd [:: 1; 2; 1]%N [:: 1; 0]] in
  [/\ val 1 h 0 = Some (TT cs), wf_tt cs, pos_tt cs, round_args cs None false & (1 < size cs)%N].
Proof. by split. Qed.
End Example_.
Print Assumptions C56_orthogonalize.
Print Assumptions C56_round.
Print Assumptions C56_sweep_independent.
Print Assumptions C56_sweep_one_mode_refuted.
