(* Properties C11 (gather outside the valid indices) and C16 (sizes of the pieces). *)
From Coq Require Import String Ascii.
From mathcomp Require Import all_ssreflect all_algebra.
From mathcomp Require Import zify.
From Verif Require Import Py Nd NdThy Ein Utils Tensor Spec ChainThy TensorThy TensorThy2 TensorThy3 TensorThy4 GatherThy GatherThy2 DotThy Ex.
Set Implicit Arguments. Unset Strict Implicit. Unset Printing Implicit Defensive.
Import GRing.Theory.
Local Open Scope ring_scope.

(* ---- C11: a tensor train reports 0 at coordinates that are out of range in some mode but
   the first, instead of raising ---- *)
Theorem C11_tt_out_of_range_refuted (R : comRingType) (cs : seq (nd R)) (idx : seq (seq nat)) (N : nat) :
  wf (TT cs) -> size idx = size (tshape (TT cs)) -> all (fun row => size row == N) idx ->
  all (fun j => j < head 0 (tshape (TT cs)))%N (head [::] idx) ->
  exists a r, [/\ to_numpy (TT cs) = Ok a, gather (TT cs) idx = Ok r, size r = N &
    forall k, (k < N)%N -> nth 0 r k =
      if inb (tshape (TT cs)) (column idx k) then get a (column idx k) else 0].
Proof.
move=> w sz rows in0; have [a Ea [wa sa ga]] := to_numpyE w.
case: cs idx w sz rows in0 Ea sa ga => [|C0 cs] [|i0 idx] // w [sz] rows in0 Ea sa ga.
rewrite size_map in sz; exists a; eexists; split; first exact: Ea.
- exact: (tt_gather0E w sz rows in0).
- by rewrite size_map size_iota.
move=> k hk; rewrite (nth_map 0%N) ?size_iota // nth_iota // add0n /or0; case: ifP => // hb.
by rewrite -ga.
Qed.
Print Assumptions C11_tt_out_of_range_refuted.

(* ---- ... and raises IndexError when a first coordinate is out of range or when there are
   fewer index rows than modes; a CP tensor raises IndexError for every out-of-range
   coordinate, a sparse tensor ValueError. ---- *)
Theorem C11_raises (R : comRingType) (X : tensor R) (idx : seq (seq nat)) (N : nat) :
  wf X -> (0 < size (tshape X))%N -> all (fun row => size row == N) idx ->
  match X with
  | TT cs => [/\ (idx <> [::] -> ~~ all (fun j => j < head 0 (tshape X))%N (head [::] idx) -> gather X idx = Err IndexError),
       (0 < size idx < size (tshape X))%N -> all (fun n => 0 < n)%N (tshape X) -> gather X idx = Err IndexError &
       (idx = [::] -> gather X idx = Err ValueError)]
  | CP cs => size idx = size (tshape X) -> ~~ all (fun k => inb (tshape X) (column idx k)) (iota 0 N) ->
       gather X idx = Err IndexError
  | Sparse _ _ _ => size idx <> size (tshape X) \/ ~~ all (fun k => inb (tshape X) (column idx k)) (iota 0 N) ->
       gather X idx = Err ValueError
  | _ => gather X idx = Err AttributeError
  end.
Proof.
case: X => [a|s inds vals|cs|cs|fs c|s Xs] // w sp rows.
- move=> h; rewrite /= /sparse_gather /ravel_multi; case: ifP => // /and3P[/eqP e r1 r2].
  case: h => [//|]; case/negP; have -> : N = size (head [::] idx).
    by case: idx rows e {r1 r2} => [|row idx] /=; [move=> _ /= e; rewrite /= -e in sp|case/andP=> /eqP].
  exact: r2.
- case: cs w sp => [|C0 cs] // w sp; split.
  + case: idx rows => [|i0 idx] // rows _ /= h; have /andP[_ /and3P[HC0 /eqP SC0 _]] := w.
    have Ei0 : size i0 = N by case/andP: rows => /eqP.
    have rows' : all (fun row : seq nat => size row == size i0) idx by rewrite Ei0; case/andP: rows.
    rewrite eqxx rows' /=.
    have P1 : prods (behead (nshape C0)) = prods (nshape C0) by rewrite SC0 /= !muln1 mul1n.
    have [c0 -> [Hc0 Sc0 Gc0]] := reshape_spec HC0 P1; rewrite /=.
    have -> : take_ax 0 i0 c0 = Err IndexError by rewrite /take_ax {1}/dim Sc0 SC0 /= (negbTE h).
    by [].
  + case: idx rows => [|i0 idx] // rows sz pos.
    case h0 : (all (fun j => j < dim C0 1)%N i0); last first.
      have /andP[_ /and3P[HC0 /eqP SC0 _]] := w.
      have Ei0 : size i0 = N by case/andP: rows => /eqP.
      have rows' : all (fun row : seq nat => size row == size i0) idx by rewrite Ei0; case/andP: rows.
      rewrite /= eqxx rows' /=.
      have P1 : prods (behead (nshape C0)) = prods (nshape C0) by rewrite SC0 /= !muln1 mul1n.
      have [c0 -> [Hc0 Sc0 Gc0]] := reshape_spec HC0 P1; rewrite /=.
      have -> : take_ax 0 i0 c0 = Err IndexError by rewrite /take_ax {1}/dim Sc0 SC0 /= h0.
      by [].
    exact: tt_gather_short w rows h0 sz pos.
  + by move=> ->.
- case: cs w sp => [|C0 cs] // w sp sz h; case: idx rows sz h => [|i0 idx] // rows [sz] h.
  rewrite size_map in sz; move: w => /andP[_] /= /andP[/andP[HC0 /eqP SC0] Hcs].
  have Ei0 : size i0 = N by case/andP: rows => /eqP.
  rewrite /cp_gather /=; case h0 : (all (fun j => j < dim C0 0)%N i0); last by rewrite /take_ax h0.
  rewrite (take0E SC0 h0) /= (@cp_take_out _ _ _ N (dim C0 1)) //.
  + by case/andP: rows.
  + exact: nwf_tab.
  + by rewrite /= Ei0.
  apply/negP => /allP hz; case/negP: h; apply/allP => k; rewrite mem_iota add0n => hk.
  rewrite /= (all_nthP _ h0) ?Ei0 //=; move: rows => /= /andP[_].
  elim: (cs) (idx) sz hz => [|C l IH] [|row rows'] //= [sz'] hz /andP[/eqP hr hrs].
  rewrite IH //; last by move=> p hp; apply: hz; rewrite inE hp orbT.
  rewrite andbT; have := hz (C, row); rewrite inE eqxx => /(_ isT) /= /(all_nthP 0%N); apply.
  by rewrite hr.
Qed.
Print Assumptions C11_raises.

(* ---- a CP tensor given fewer index rows than modes silently ignores the remaining factors:
   it returns entries of the CP tensor of the first factor matrices ---- *)
Theorem C11_cp_short_refuted (R : comRingType) (cs : seq (nd R)) (idx : seq (seq nat)) (N k : nat) :
  wf (CP cs) -> (0 < k <= size cs)%N -> wf_inds (take k (tshape (CP cs))) idx N ->
  exists a r, [/\ to_numpy (CP (take k cs)) = Ok a, gather (CP cs) idx = Ok r, size r = N &
    forall q, (q < N)%N -> nth 0 r q = get a (column idx q)].
Proof.
move=> w /andP[k0 kl] wi.
have w' : wf (CP (take k cs)).
  case: cs k k0 kl w {wi} => [|C cs] [|k] // _ _ /andP[_] /= /andP[h hs].
  by apply/andP; split=> //=; rewrite h /=; apply/allP => D /mem_take /(allP hs).
have sh : tshape (CP (take k cs)) = take k (tshape (CP cs)) by rewrite /= map_take.
have s0 : (0 < size (tshape (CP (take k cs))))%N by rewrite sh size_takel // size_map.
have [|a [r [Ea Er sr hr]]] := @obs_gather R (CP (take k cs)) idx N w' _ s0 isT; first by rewrite sh.
exists a, r; split=> //; rewrite -Er /= /cp_gather.
have szi : size idx = k by case/and3P: wi => /eqP -> _ _; rewrite size_takel // size_map.
suff -> : zip cs idx = zip (take k cs) idx by [].
rewrite -[in LHS](cat_take_drop k cs) -[in LHS](cats0 idx) zip_cat ?size_takel //.
by case: (drop k cs) => [|x y]; rewrite cats0.
Qed.
Print Assumptions C11_cp_short_refuted.

Example C11_out_nonvacuous :
  [/\ gather (TT ex_tt) [:: [:: 0; 1; 1]; [:: 2; 9; 0]; [:: 1; 1; 1] ]%N = Ok [:: 84; 0; 28 : int],
      gather (TT ex_tt) [:: [:: 5]; [:: 0]; [:: 0] ]%N = Err IndexError,
      gather (TT ex_tt) [:: [:: 1]; [:: 0] ]%N = Err IndexError,
      gather (CP ex_cp) [:: [:: 1]; [:: 7]; [:: 0] ]%N = Err IndexError &
      gather ex_sparse [:: [:: 1]; [:: 7]; [:: 0] ]%N = Err ValueError].
Proof. by vm_compute. Qed.

(* ---- C16: every piece but the last holds nnz // n entries, the last one the rest ---- *)
Theorem C16_split_sizes (R : comRingType) s inds (vals : seq R) n :
  wf (Sparse s inds vals) -> (0 < n)%N ->
  exists Xs, sparse_split s inds vals n = Ok (TSum s Xs) /\ size Xs = n /\
    forall k, (k < n)%N -> exists i v, nth (Sparse s inds vals) Xs k = Sparse s i v /\
      size v = if k.+1 == n then (size vals %/ n + size vals %% n)%N else (size vals %/ n)%N.
Proof.
move=> w; case: n => // n _; set sl := fun i => Sparse s [seq split_slice (size vals) n.+1 i row | row <- inds]
   (split_slice (size vals) n.+1 i vals).
exists [seq sl i | i <- iota 0 n.+1]; split; first by [].
split; first by rewrite size_map size_iota.
move=> k hk; rewrite (nth_map 0%N) ?size_iota // nth_iota // add0n; do 2 eexists; split; first by [].
rewrite (split_sliceE _ _ hk) // size_drop; have := divn_eq (size vals) n.+1.
set q := (_ %/ _)%N; set r := (_ %% _)%N => e.
have le : (n.+1 * q <= size vals)%N by rewrite e mulnC leq_addr.
case: eqP => [[->]|nk]; first by rewrite take_size; move: e le; clear; lia.
have kn : (k.+1 * q <= n.+1 * q)%N by rewrite leq_mul2r hk orbT.
by rewrite size_takel; move: le kn; clear; lia.
Qed.
Print Assumptions C16_split_sizes.
Example C16_sizes_nonvacuous : wf ex_sparse /\ sparse_split [:: 2; 3; 2]%N ex_inds (ex_vals : seq int) 2 =
    Ok (TSum [:: 2; 3; 2]%N
      [:: Sparse [:: 2; 3; 2]%N [:: [:: 0]; [:: 2]; [:: 1] ]%N [:: 7];
          Sparse [:: 2; 3; 2]%N [:: [:: 1; 1]; [:: 0; 2]; [:: 1; 0] ]%N [:: -3; 11] ]).
Proof. by vm_compute. Qed.
