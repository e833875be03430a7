(* Properties C27 (to_tt) and C28-C31: the tensor trains recovered from sketches.
   R is any real closed field; lstsq and qr are any functions meeting the contracts of LinSpec.v
   and RecSpec.v (they may raise LinAlgError).  The random generators are arbitrary. *)
From Coq Require Import String Ascii NArith.
From mathcomp Require Import all_ssreflect all_algebra.
From mathcomp Require Import zify.
From Verif Require Import Py Nd NdThy Ein Utils Tensor Hash Sketch Spec LinSpec ChainThy TensorThy TensorThy2 TensorThy4 TrimThy SweepThy RoundThy SkSpec SkThy1 SkThy10 SkThy12 SkThy13 SkThy14 RecSpec RecThy1 RecThy2 RecThy3 RecThy4 Prop_Sketch.
Set Implicit Arguments. Unset Strict Implicit. Unset Printing Implicit Defensive.
Import GRing.Theory Num.Theory.
Local Open Scope ring_scope.

Section Theorems.
Variable R : rcfType.
Variable to_normal : N -> R.
Variable tt_random : seq nat -> seq nat -> N -> seq (nd R).
Variable stream : N -> nat -> R.
Variable offset : N -> nat -> N.
Variable right_seed_of : N -> nat -> N.
Variable lstsq : nd R -> nd R -> res (nd R).
Variable qr_econ : nd R -> res (nd R * nd R).
Hypothesis lstsq_ok : lstsq_contract lstsq.
Notation gs := (general_sketch to_normal lstsq qr_econ).
Notation stream_sketch := (stream_sketch to_normal tt_random stream offset right_seed_of lstsq qr_econ).
Notation assemble := (assemble lstsq).
Notation to_tt := (stt_to_tt lstsq).
Notation is_sk := (is_sk to_normal).
Notation C0 := (C0 R).
Implicit Types (X Y : tensor R) (D E : drm R) (a : nd R).

(* the direction chosen by assemble_sketched_tt(direction="auto") *)
Lemma auto_dir (c : container R) (k l : seq nat) : c_left_rank c = k -> c_right_rank c = l -> size k = size l ->
  assemble c Auto = assemble c (if all (fun p => p.2 < p.1)%N (zip k l) then DirLeft else DirRight).
Proof. by rewrite /assemble => -> -> e; rewrite all_gtE //=; case: ifP. Qed.

Lemma rank_all (r : seq nat) n : size r = n -> all (fun k => 0 < k)%N r -> forall mu, (mu < n)%N -> (0 < nth 0 r mu)%N.
Proof. by move=> <- /(all_nthP 0%N) h mu hm; apply: h. Qed.

(* ---- C27: to_tt returns a train of the shape of X whose rank is the smaller of the two ---- *)
Theorem C27_to_tt o X D E c (dir : direction) : let s := tshape X in let d := size s in
  wf_rep X -> (1 < d)%N -> pair_ok D E s -> fits D d.-1 X -> fits E d.-1 X -> order_ok o X ->
  all (fun n => 0 < n)%N s -> all (fun n => 0 < n)%N (d_rank D) -> all (fun n => 0 < n)%N (d_rank E) ->
  gs X (Some D) E Streaming = Ok c ->
  or_linalg (assemble c dir) (fun cs => [/\ wf_tt cs, tshape (TT cs) = s &
    tt_rank cs = let: (l, r) := (d_rank D, rev (d_rank E)) in
      match dir with
      | DirLeft => r
      | DirRight => l
      | Auto => if all (fun p => p.2 < p.1)%N (zip l r) then r else l
      end]).
Proof.
move=> s d w d1 hp fD fE oX hs hD hE ec.
have [c' ec' hc] := gs_isk to_normal lstsq qr_econ w d1 hp fD fE oX; rewrite ec in ec'; case: ec' => ec'.
rewrite -{c'}ec' in hc; case: hp => [sD sE _ [_ rD] [_ rE]]; rewrite sD in rD; rewrite sE in rE.
have d0 : (0 < d)%N by clear -d1; lia.
have [_ kl kr] := mk_ranks hc (gs_mk ec) d0.
have el : c_left_rank c = d_rank D.
  rewrite kl; apply: (@eq_from_nth _ 0%N); rewrite size_map size_iota ?rD // => mu hm.
  by rewrite (nth_map 0%N) ?size_iota // nth_iota.
have er : c_right_rank c = rev (d_rank E).
  rewrite kr; apply: (@eq_from_nth _ 0%N); rewrite size_map size_iota ?size_rev ?rE // => mu hm.
  rewrite (nth_map 0%N) ?size_iota // nth_iota // add0n nth_rev ?rE // /drm_cols; congr nth; rewrite -/s -/d; clear -hm; lia.
have ps mu : (mu < d)%N -> (0 < nth 0 s mu)%N by apply: rank_all.
have pl mu : (mu < d.-1)%N -> (0 < drm_cols D mu)%N by apply: rank_all.
have pr mu : (mu < d.-1)%N -> (0 < drm_cols E (d - mu.+2))%N.
  by move=> hm; apply: (rank_all rE) => //; clear -hm; lia.
have tr (cs : seq (nd R)) (r : seq nat) : links 1 cs 1 -> [seq dim C 1 | C <- cs] = s -> size r = d.-1 ->
    (forall mu, (mu < d.-1)%N -> dim (nth C0 cs mu) 2 = nth 0%N r mu) -> [/\ wf_tt cs, tshape (TT cs) = s & tt_rank cs = r].
  move=> lk dm sr rk; have sc : size cs = d by rewrite /d -dm size_map.
  split=> //; first by rewrite /wf_tt lk andbT; case: (cs) sc (d0) => // <-.
  apply: (@eq_from_nth _ 0%N); rewrite size_map size_behead sc ?sr // => mu hm.
  rewrite (nth_map C0) ?size_behead ?sc // nth_behead -rk //.
  have [|_ _ -> _] := links_nth lk (_ : mu < size cs)%N; first by rewrite sc; clear -hm; lia.
  rewrite (nth_map C0) // sc; clear -hm; lia.
have L : or_linalg (assemble c DirLeft) (fun cs => [/\ wf_tt cs, tshape (TT cs) = s & tt_rank cs = rev (d_rank E)]).
  apply: or_imp (asmLE lstsq_ok d1 hc ps pl pr) _ => cs [lk dm rk _ _]; apply: tr => //; first by rewrite size_rev.
  move=> mu hm; rewrite rk // nth_rev ?rE // /drm_cols; congr nth; rewrite -/s -/d; clear -hm; lia.
have Rt : or_linalg (assemble c DirRight) (fun cs => [/\ wf_tt cs, tshape (TT cs) = s & tt_rank cs = d_rank D]).
  by apply: or_imp (asmRE lstsq_ok d1 hc ps pl pr) _ => cs [lk dm rk _ _]; apply: tr.
case: dir => //; rewrite (auto_dir el er) ?size_rev ?rD ?rE //; case: ifP => _ //.
Qed.

(* ---- C28: exact recovery ---- *)
(* the rank condition: every Omega has the rank of the corresponding unfolding of X *)
Definition rank_condition (D E : drm R) (s : seq nat) (x : seq nat -> R) (c : container R) : Prop :=
  forall mu, (mu < (size s).-1)%N ->
   \rank (amat (nth C0 (Omega_mats c) mu) (drm_cols D mu) (drm_cols E (size s - mu.+2))) = \rank (unfolding s x mu).

Lemma rank_factors f g lr rr s (x : seq nat -> R) c : is_sketch_with f g lr rr s x c ->
  (forall mu, (mu < (size s).-1)%N -> \rank (amat (nth C0 (Omega_mats c) mu) (lr mu) (rr mu)) = \rank (unfolding s x mu)) ->
  exists M N, (forall mu i j, (mu < (size s).-1)%N -> inb (take mu.+1 s) i -> inb (drop mu.+1 s) j ->
     x (i ++ j) = \sum_(0 <= b < rr mu) sum_idx (drop mu.+1 s) (fun j' => x (i ++ j') * g mu j' b) * M mu b j) /\
   (forall mu i j, (mu < (size s).-1)%N -> inb (take mu.+1 s) i -> inb (drop mu.+1 s) j ->
     x (i ++ j) = \sum_(0 <= a < lr mu) N mu i a * sum_idx (take mu.+1 s) (fun i' => f mu i' a * x (i' ++ j))).
Proof.
move=> [_ _ _ hO] hr.
have both mu : (mu < (size s).-1)%N -> exists MN : (nat -> seq nat -> R) * (seq nat -> nat -> R),
   (forall i j, inb (take mu.+1 s) i -> inb (drop mu.+1 s) j ->
     x (i ++ j) = \sum_(0 <= b < rr mu) sum_idx (drop mu.+1 s) (fun j' => x (i ++ j') * g mu j' b) * MN.1 b j) /\
   (forall i j, inb (take mu.+1 s) i -> inb (drop mu.+1 s) j ->
     x (i ++ j) = \sum_(0 <= a < lr mu) MN.2 i a * sum_idx (take mu.+1 s) (fun i' => f mu i' a * x (i' ++ j))).
  move=> hm; have [_ _ gO] := hO mu hm; have := hr mu hm.
  have -> : amat (nth C0 (Omega_mats c) mu) (lr mu) (rr mu) = \matrix_(a < lr mu, b < rr mu) Omega_of (f mu) (g mu) s x mu a b.
    by apply/matrixP=> a b; rewrite !mxE gO.
  rewrite omega_mx => /rank_both[h1 h2].
  by have [M hM] := range_of h1; have [N hN] := corange_of h2; exists (M, N).
have [F hF] : exists F : nat -> (nat -> seq nat -> R) * (seq nat -> nat -> R), forall mu, (mu < (size s).-1)%N ->
   (forall i j, inb (take mu.+1 s) i -> inb (drop mu.+1 s) j ->
     x (i ++ j) = \sum_(0 <= b < rr mu) sum_idx (drop mu.+1 s) (fun j' => x (i ++ j') * g mu j' b) * (F mu).1 b j) /\
   (forall i j, inb (take mu.+1 s) i -> inb (drop mu.+1 s) j ->
     x (i ++ j) = \sum_(0 <= a < lr mu) (F mu).2 i a * sum_idx (take mu.+1 s) (fun i' => f mu i' a * x (i' ++ j))).
  elim: ((size s).-1) both => [|n IH] H; first by exists (fun _ => (fun _ _ => 0, fun _ _ => 0)).
  have [|F hF] := IH; first by move=> mu hm; apply: H; apply: ltnW.
  have [G hG] := H n (ltnSn n); exists (fun mu => if mu == n then G else F mu) => mu.
  by rewrite ltnS leq_eqVlt; case: eqP => [-> //|_ /= hm]; apply: hF.
by exists (fun mu => (F mu).1), (fun mu => (F mu).2); split=> mu i j hm hi hj; have [h1 h2] := hF mu hm; [apply: h1|apply: h2].
Qed.

Lemma recover_sk f g lr rr X a c dir : let s := tshape X in let d := size s in
  wf X -> to_numpy X = Ok a -> (1 < d)%N -> is_sketch_with f g lr rr s (get a) c ->
  c = mk_container (Psi_cores c) (Omega_mats c) ->
  (forall mu, (mu < d)%N -> (0 < nth 0 s mu)%N) -> (forall mu, (mu < d.-1)%N -> (0 < lr mu)%N) ->
  (forall mu, (mu < d.-1)%N -> (0 < rr mu)%N) ->
  (forall mu, (mu < d.-1)%N -> \rank (amat (nth C0 (Omega_mats c) mu) (lr mu) (rr mu)) = \rank (unfolding s (get a) mu)) ->
  or_linalg (assemble c dir) (fun cs => to_numpy (TT cs) = Ok a).
Proof.
move=> s d w ea d1 hc mc ps pl pr rc.
have [M [N [hM hN]]] := rank_factors hc rc.
have [sa _] := den_numpy w ea; have wa : nwf a by have [b eb [? _ _]] := to_numpyE w; move: eb; rewrite ea => -[->].
have fin (cs : seq (nd R)) : links 1 cs 1 -> [seq dim C 1 | C <- cs] = s -> (forall i, inb s i -> chain cs i 0 0 = get a i) -> to_numpy (TT cs) = Ok a.
  move=> lk dm hcs; have [|b -> [wb sb gb]] := @to_numpyE R (TT cs).
    rewrite /wf /= /wf_tt lk andbT; move: d1; rewrite /d -dm; by case: (cs).
  congr Ok; apply: nd_ext => //; rewrite ?sb ?sa /= ?dm // => i hi.
  by rewrite gb /= ?dm //; apply: hcs.
have L : or_linalg (assemble c DirLeft) (fun cs => to_numpy (TT cs) = Ok a).
  apply: or_imp (asmLE lstsq_ok d1 hc ps pl pr) _ => cs h; have [lk dm _ _ _] := h.
  by apply: fin => //; apply: (exactL d1 hc hM hN h).
have Rt : or_linalg (assemble c DirRight) (fun cs => to_numpy (TT cs) = Ok a).
  apply: or_imp (asmRE lstsq_ok d1 hc ps pl pr) _ => cs h; have [lk dm _ _ _] := h.
  by apply: fin => //; apply: (exactR d1 hc hM hN h).
case: dir => //; have d0 : (0 < d)%N by clear -d1; lia.
have [_ kl kr] := mk_ranks hc mc d0.
by rewrite (auto_dir kl kr) ?size_map //; case: ifP.
Qed.

Theorem C28_exact_recovery o X D E a c (dir : direction) : let s := tshape X in let d := size s in
  wf X -> to_numpy X = Ok a -> (1 < d)%N -> pair_ok D E s -> fits D d.-1 X -> fits E d.-1 X -> order_ok o X ->
  all (fun n => 0 < n)%N s -> all (fun n => 0 < n)%N (d_rank D) -> all (fun n => 0 < n)%N (d_rank E) ->
  gs X (Some D) E Streaming = Ok c -> rank_condition D E s (get a) c ->
  or_linalg (assemble c dir) (fun cs => to_numpy (TT cs) = Ok a).
Proof.
move=> s d w ea d1 hp fD fE oX hs hD hE ec rc.
have [c' ec' hc] := gs_isk to_normal lstsq qr_econ (wf_gen_rep w) d1 hp fD fE oX; rewrite ec in ec'; case: ec' => ec'.
rewrite -{c'}ec' in hc; have {}hc := is_sk_numpy w ea hc.
case: hp => [sD sE _ [_ rD] [_ rE]]; rewrite sD in rD; rewrite sE in rE.
apply: (recover_sk dir w ea d1 hc (gs_mk ec)) => //.
- by move=> mu hm; apply: rank_all hm.
- by move=> mu hm; apply: (rank_all rD).
- move=> mu hm; apply: (rank_all rE) => //; have {}hm : (mu < d.-1)%N := hm; change (size (tshape X)) with d.
  by clear -hm; lia.
Qed.

(* the user-level call: stream_sketch(X, l, r).to_tt() with default (TensorTrainDRM) DRMs *)
Theorem C28_stream_sketch_default X a l r lk rk seed ent (lbig : bool) :
  let s := tshape X in let d := size s in
  tt_random_ok tt_random ->
  wf X -> to_numpy X = Ok a -> right_ok X -> (1 < d)%N -> all (fun n => 0 < n)%N s ->
  process_tt_rank l s false = Ok lk -> process_tt_rank r s false = Ok rk ->
  all (fun n => 0 < n)%N lk -> all (fun n => 0 < n)%N rk ->
  (forall mu, (mu < d.-1)%N -> if lbig then (nth 0 rk mu < nth 0 lk mu)%N else (nth 0 lk mu < nth 0 rk mu)%N) ->
  exists2 st, stream_sketch X l r seed None None None None ent = Ok st &
    rank_condition (left_drm st) (right_drm st) s (get a) (sketch_ st) ->
    or_linalg (to_tt st) (fun cs => to_numpy (TT cs) = Ok a).
Proof.
move=> s d hr w ea rX d1 hs pl pr hl hR hb.
have [st es [mD mE cD cE hsk]] := C21_stream_sketch_default to_normal stream offset right_seed_of lstsq qr_econ seed ent hr w ea rX d1 hs pl pr hl hR hb.
exists st => // rc; have s0 : (0 < size s)%N by rewrite -/d; clear -d1; lia.
have [[_ _ _ rD] slk] := made_good hr mD; have [[_ _ _ rE] srk] := made_good hr mE.
have [_ slk0] := SkThy9.process_size pl erefl; have [_ srk0] := SkThy9.process_size pr erefl.
have pt b (k : seq nat) : size k = d.-1 -> all (fun n => 0 < n)%N k -> all (fun n => 0 < n)%N (trim_if b s k).
  by move=> sk hk; rewrite /trim_if; case: b => //; have [h1 h2 _ _] := trim_bounds hs hk s0 sk.
apply: (recover_sk Auto w ea d1 hsk).
- move: es; rewrite /Sketch.stream_sketch; do 2 (case: (rank_gt _ _) => //= ?); case: ifP => // _.
  case: (make_drms _ _ _ _ _ _ _ _ _ _ _ _ _ _ _) => //= p; case e : (general_sketch _ _ _ _ _ _ _) => [c|] //= [<-] /=.
  exact: gs_mk e.
- by move=> mu hm; apply: rank_all hm.
- by move=> mu hm; rewrite /drm_cols rD; apply: rank_all hm => //; apply: pt.
- move=> mu hm; rewrite /drm_cols rE /SkThy9.flip; apply: (@rank_all _ d.-1); rewrite ?size_rev //.
    by rewrite all_rev; apply: pt.
  have {}hm : (mu < d.-1)%N := hm; change (size (tshape X)) with d; by clear -hm; lia.
- exact: rc.
Qed.
End Theorems.
Print Assumptions C27_to_tt.
Print Assumptions C28_exact_recovery.
Print Assumptions C28_stream_sketch_default.
