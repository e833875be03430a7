(* Property C19: matricize / dematricize (utils.py:63-95). *)
From mathcomp Require Import all_ssreflect all_algebra.
From mathcomp Require Import zify.
From Verif Require Import Py Nd NdThy Utils TensorThy MatThy Ex.
Set Implicit Arguments. Unset Strict Implicit. Unset Printing Implicit Defensive.
Local Open Scope ring_scope.

(* [js] are the indices of the modes other than m, [take m js ++ x :: drop m js] is js
   with x inserted at position m; [ravel] is the C-order position. *)
Theorem C19_matricize_entries (R : ringType) (A : nd R) (m : nat) :
  nwf A -> (m < ndim A)%N ->
  exists2 B, matricize A [:: m] false = Ok B &
  let rest := take m (nshape A) ++ drop m.+1 (nshape A) in
  [/\ nwf B, nshape B = [:: dim A m; prods rest] &
   forall x js, (x < dim A m)%N -> inb rest js ->
     get B [:: x; ravel rest js] = get A (take m js ++ x :: drop m js)].
Proof.
move=> wA mA; have [B E [H1 H2 H3]] := matricize_mode wA mA.
exists B => //; split=> // x js hx hj; apply: H3; rewrite /= hx; exact: hj.
Qed.
Print Assumptions C19_matricize_entries.

Theorem C19_roundtrip (R : ringType) (A : nd R) (m : nat) :
  nwf A -> (m < ndim A)%N ->
  exists2 B, matricize A [:: m] false = Ok B & dematricize B m (nshape A) = Ok A.
Proof.
move=> wA mA; have := dematricizeK wA mA.
by have [B -> _] := matricize_mode wA mA; exists B.
Qed.
Print Assumptions C19_roundtrip.

(* Grouping the k leading modes keeps the data order: it is A.reshape(...). *)
Theorem C19_leading_modes (R : ringType) (A : nd R) (k : nat) (mat_shape : bool) :
  nwf A -> (k <= ndim A)%N ->
  matricize A (iota 0 k) mat_shape =
  reshape A ((if mat_shape then [:: prods (take k (nshape A))] else take k (nshape A))
             ++ [:: prods (drop k (nshape A))]).
Proof.
move=> wA kA; rewrite matricize_lead // reshapeE // prods_cat /= muln1.
rewrite -[in RHS](cat_take_drop k (nshape A)) prods_cat.
by case: mat_shape => /=; rewrite ?muln1.
Qed.
Print Assumptions C19_leading_modes.

Example C19_nonvacuous :
  matricize (ex_dense) [:: 1%N] false =
  Ok (arrZ [:: 3; 4]%N [:: 1; 2; 7; 8; 3; 4; 9; 10; 5; 6; 11; -12]).
Proof. by vm_compute. Qed.

(* Any list of distinct modes, in any order: the modes become the leading axes (or one
   row index when mat_shape), the remaining modes are grouped, in order, into one column
   index.  [map (nth 0 i) ks] is the part of the index i at the modes ks. *)
Theorem C19_any_modes (R : ringType) (A : nd R) (modes : seq nat) (mat_shape : bool) :
  nwf A -> uniq modes -> all (fun m => m < ndim A)%N modes ->
  let rest := [seq k <- iota 0 (ndim A) | k \notin modes] in
  let dims := map (dim A) in
  exists2 B, matricize A modes mat_shape = Ok B &
  [/\ nwf B,
      nshape B = rcons (if mat_shape then [:: prods (dims modes)] else dims modes) (prods (dims rest)) &
      forall i, inb (nshape A) i ->
        let at_modes := map (nth 0%N i) modes in
        get B (rcons (if mat_shape then [:: ravel (dims modes) at_modes] else at_modes)
                     (ravel (dims rest) (map (nth 0%N i) rest))) = get A i].
Proof.
move=> wA um am rest dims.
have pe : perm_eq (modes ++ rest) (iota 0 (ndim A)).
  apply: uniq_perm; first 1 last.
  - exact: iota_uniq.
  - move=> k; rewrite mem_cat mem_filter mem_iota /= add0n.
    case km : (k \in modes) => //=.
    by rewrite (allP am _ km).
  - rewrite cat_uniq um filter_uniq ?iota_uniq // andbT /=.
    by apply/hasPn => k; rewrite mem_filter => /andP[].
rewrite /matricize /transpose -/rest pe [bind _ _]/=.
set T := tab _ _.
have sT : nshape T = dims modes ++ dims rest by rewrite /T /= map_cat.
rewrite -map_cat -/(nshape T) in sT *.
have -> : [seq dim A k | k <- modes ++ rest] = dims modes ++ dims rest by rewrite map_cat.
rewrite take_size_cat ?size_map // drop_size_cat ?size_map //.
set L := if mat_shape then _ else _.
have wT : nwf T := nwf_tab _ _.
have pT : prods (L ++ [:: prods (dims rest)]) = prods (nshape T).
  by rewrite sT map_cat !prods_cat /= muln1 /L; case: (mat_shape) => /=; rewrite ?muln1.
have [B -> [wB sB gB]] := reshape_spec wT pT.
exists B => //; split; [exact: wB|by rewrite sB cats1|].
move=> i hi; set at_modes := map (nth 0%N i) modes.
have bm ks : all (fun m => m < ndim A)%N ks -> inb (dims ks) (map (nth 0%N i) ks).
  by elim: ks => [|k ks IH] //= /andP[h /IH ->]; rewrite andbT; apply: inb_nth.
have arest : all (fun m => m < ndim A)%N rest.
  by apply/allP => k; rewrite mem_filter mem_iota => /andP[_ /andP[_]].
have sm : size at_modes = size (dims modes) by rewrite !size_map.
rewrite (gB _ (map (nth 0%N i) (modes ++ rest))); last first.
  rewrite sT !map_cat [RHS]ravel_cat // -cats1 ravel_cat; last by rewrite /L; case: (mat_shape).
  by rewrite /= muln1 addn0 muln1 /L; case: (mat_shape) => //=; rewrite muln1 addn0.
rewrite /T get_tab; last by apply: bm; rewrite all_cat am.
congr get; apply: (@eq_from_nth _ 0%N).
  by rewrite size_map size_iota (inb_size hi).
move=> k; rewrite size_map size_iota => kl.
rewrite (nth_map 0%N) ?size_iota // nth_iota // add0n.
have km : k \in modes ++ rest by rewrite (perm_mem pe) mem_iota.
by rewrite (nth_map 0%N) ?index_mem // nth_index.
Qed.
Print Assumptions C19_any_modes.

(* A repeated or out-of-range mode raises ValueError (np.transpose rejects the axes). *)
Theorem C19_bad_modes (R : ringType) (A : nd R) (modes : seq nat) (mat_shape : bool) :
  ~~ uniq modes || ~~ all (fun m => m < ndim A)%N modes -> matricize A modes mat_shape = Err ValueError.
Proof.
move=> h; rewrite /matricize /transpose; case: ifP => // pe; exfalso; move: h.
have := perm_uniq pe; rewrite iota_uniq cat_uniq => /andP[-> _] /=.
move=> /allPn[k km]; have := perm_mem pe k; rewrite mem_cat km /= mem_iota add0n /= => <- //.
Qed.
Print Assumptions C19_bad_modes.

(* a middle and a trailing mode, in swapped order *)
Example C19_any_nonvacuous :
  [/\ matricize (ex_dense) [:: 2; 0]%N true =
        Ok (arrZ [:: 4; 3]%N [:: 1; 3; 5; 7; 9; 11; 2; 4; 6; 8; 10; -12]),
      nwf ex_dense, uniq [:: 2; 0]%N, all (fun m => m < ndim ex_dense)%N [:: 2; 0]%N &
      matricize ex_dense [:: 0; 0]%N true = Err ValueError].
Proof. by vm_compute. Qed.
