(* Proofs about matricize / dematricize (utils.py:63-95). *)
From mathcomp Require Import all_ssreflect all_algebra.
From mathcomp Require Import zify.
From Verif Require Import Py Nd NdThy Utils TensorThy.
Set Implicit Arguments. Unset Strict Implicit. Unset Printing Implicit Defensive.
Import GRing.Theory.
Local Open Scope ring_scope.

Section Mat.
Variable R : ringType.
Implicit Types A : nd R.

(* x inserted at position m *)
Definition ins (m x : nat) (js : seq nat) : seq nat := take m js ++ x :: drop m js.
Definition del (m : nat) (js : seq nat) : seq nat := take m js ++ drop m.+1 js.

Lemma idx_iota a n k : (a <= k < a + n)%N -> index k (iota a n) = (k - a)%N.
Proof.
move=> /andP[ak kn]; have e : k = nth 0%N (iota a n) (k - a) by rewrite nth_iota; lia.
by rewrite {1}e index_uniq ?iota_uniq // size_iota; lia.
Qed.

Lemma others d m : (m < d)%N ->
  [seq i <- iota 0 d | i \notin [:: m]] = iota 0 m ++ iota m.+1 (d - m.+1).
Proof.
move=> md; rewrite {1}(_ : d = (m + (1 + (d - m.+1)))%N); last by lia.
rewrite iotaD add0n filter_cat /= inE eqxx /=.
congr cat; apply/all_filterP/allP => i; rewrite mem_iota inE; lia.
Qed.

Lemma perm_ins d m : (m < d)%N ->
  perm_eq (m :: (iota 0 m ++ iota m.+1 (d - m.+1))) (iota 0 d).
Proof.
move=> md; rewrite -cat1s perm_catCA /=.
by have -> : iota 0 m ++ m :: iota m.+1 (d - m.+1) = iota 0 d
  by rewrite -[m :: _]/(iota m (d - m.+1).+1) -iotaD; congr iota; lia.
Qed.

Lemma nth_ins m x js k : (m <= size js)%N ->
  nth 0%N (ins m x js) k = if (k < m)%N then nth 0%N js k else if k == m then x else nth 0%N js k.-1.
Proof.
move=> ms; rewrite /ins nth_cat size_takel //; case: ltnP => km; first by rewrite nth_take.
case: eqP => [->|/eqP nk]; first by rewrite subnn.
have -> : (k - m = (k.-1 - m).+1)%N by lia.
by rewrite /= nth_drop; congr nth; lia.
Qed.

Lemma size_ins m x js : (m <= size js)%N -> size (ins m x js) = (size js).+1.
Proof. by move=> ms; rewrite /ins size_cat /= size_takel // size_drop; lia. Qed.
Lemma size_del m js : (m < size js)%N -> size (del m js) = (size js).-1.
Proof. by move=> ms; rewrite /del size_cat size_takel ?size_drop //; lia. Qed.

Lemma delK m js : (m < size js)%N -> ins m (nth 0%N js m) (del m js) = js.
Proof.
move=> ml; rewrite /ins /del take_size_cat ?size_takel // 1?ltnW //.
rewrite drop_size_cat ?size_takel // 1?ltnW //.
by rewrite -drop_nth // cat_take_drop.
Qed.

Lemma insK m x js : (m <= size js)%N -> del m (ins m x js) = js.
Proof.
move=> ml; rewrite /ins /del take_size_cat ?size_takel //.
by rewrite -cat_rcons drop_size_cat ?size_rcons ?size_takel // cat_take_drop.
Qed.

Lemma inb_ins m x s i : (m < size s)%N ->
  inb (nth 0%N s m :: del m s) (x :: i) -> inb s (ins m x i).
Proof.
move=> ml /= /andP[xl /inbP[si h]]; rewrite size_del // in si.
apply/inbP; split; first by rewrite size_ins; lia.
move=> k kl; rewrite nth_ins; last by lia.
rewrite -{1}(delK ml) nth_ins ?size_del //; last by lia.
case: (ltnP k m) => km; first by apply: h; rewrite size_del //; lia.
by case: eqP => [//|nk]; apply: h; rewrite size_del //; lia.
Qed.

Lemma map_others (s : seq nat) m : (m < size s)%N ->
  [seq nth 0%N s k | k <- iota 0 m ++ iota m.+1 (size s - m.+1)] = del m s.
Proof.
move=> ml; rewrite map_cat; congr cat.
  by rewrite map_nth_iota0 // ltnW.
by rewrite map_nth_iota // take_oversize // size_drop; lia.
Qed.

Lemma prods_del m s : (m < size s)%N -> (nth 0%N s m * prods (del m s) = prods s)%N.
Proof.
move=> ml; rewrite -[in RHS](delK ml) /del /ins !prods_cat prods_cons.
rewrite take_size_cat ?size_takel // 1?ltnW // drop_size_cat ?size_takel // 1?ltnW //.
by rewrite mulnCA.
Qed.

Lemma matricize_mode A m : nwf A -> (m < ndim A)%N ->
  exists2 B, matricize A [:: m] false = Ok B &
  [/\ nwf B, nshape B = [:: dim A m; prods (del m (nshape A))] &
   forall x js, inb (dim A m :: del m (nshape A)) (x :: js) ->
     get B [:: x; ravel (del m (nshape A)) js] = get A (ins m x js)].
Proof.
rewrite /ndim => wA ml; rewrite /matricize /transpose /ndim others //= (perm_ins ml) /=.
set T := tab _ _; have wT : nwf T := nwf_tab _ _.
have sT : nshape T = dim A m :: del m (nshape A) by rewrite /T /= map_others.
rewrite take0 drop0 map_others // cat0s.
have P : prods [:: dim A m; prods (del m (nshape A))] = prods (nshape T).
  by rewrite sT /= muln1.
have [B -> [wB sB gB]] := reshape_spec wT P.
exists B => //; split=> // x js hi.
rewrite (gB _ (x :: js)); last by rewrite sT /= !muln1 addn0.
rewrite /T get_tab; last by rewrite map_others.
congr get; apply: (@eq_from_nth _ 0%N).
  rewrite size_map size_iota size_ins; case/andP: hi => _ /inb_size ->; rewrite size_del //.
    by move: ml; clear; lia.
  by lia.
move=> k; rewrite size_map size_iota => kl.
case/andP: hi => _ /inb_size sj; rewrite size_del // in sj.
rewrite nth_ins; last by rewrite sj; lia.
rewrite (nth_map 0%N) ?size_iota // nth_iota // add0n /=.
case: eqP => [->|/eqP km]; first by rewrite ltnn eqxx.
rewrite [k == m]eq_sym (negbTE km) /= index_cat mem_iota add0n /=.
case: ltnP => km'; first by rewrite idx_iota ?subn0.
rewrite size_iota idx_iota; last by move: kl km km'; clear; lia.
have -> : (m + (k - m.+1) = k.-1)%N by move: km km'; clear; lia.
by [].
Qed.

Lemma perm_back d m : (m < d)%N ->
  take m (iota 1 d.-1) ++ [:: 0%N] ++ drop m (iota 1 d.-1) = iota 1 m ++ 0%N :: iota m.+1 (d.-1 - m).
Proof.
move=> md; have -> : d.-1 = (m + (d.-1 - m))%N by lia.
rewrite iotaD add1n take_size_cat ?size_iota // drop_size_cat ?size_iota //=.
by congr (_ ++ _ :: iota _ _); lia.
Qed.

Lemma nth_del m js k : (m < size js)%N ->
  nth 0%N (del m js) k = if (k < m)%N then nth 0%N js k else nth 0%N js k.+1.
Proof.
move=> ml; rewrite /del nth_cat size_takel; last exact: ltnW.
case: (ltnP k m) => km.
  by rewrite nth_take.
by rewrite nth_drop addSn subnKC.
Qed.

Lemma perm_ins0 d m : (m < d)%N ->
  perm_eq (ins m 0%N (iota 1 d.-1)) (0%N :: iota 1 d.-1).
Proof. by move=> md; rewrite /ins -[0%N :: drop _ _]cat1s perm_catCA /= cat_take_drop perm_refl. Qed.

Lemma index_ins0 d m k : (m < d)%N -> (k < d)%N ->
  index k (ins m 0%N (iota 1 d.-1)) = if k == 0%N then m else if (k <= m)%N then k.-1 else k.
Proof.
move=> md kd; have u : uniq (ins m 0%N (iota 1 d.-1)).
  by rewrite (perm_uniq (perm_ins0 md)) /= iota_uniq mem_iota.
have sz : size (ins m 0%N (iota 1 d.-1)) = d by rewrite size_ins size_iota //; lia.
set r := (X in _ = X); have rd : (r < d)%N by rewrite /r; do ?case: ifP => _; lia.
have -> : k = nth 0%N (ins m 0%N (iota 1 d.-1)) r.
  rewrite nth_ins ?size_iota; last by lia.
  rewrite /r; case: eqP => [->|k0]; first by rewrite ltnn eqxx.
  case: (leqP k m) => km.
    have e : (k.-1 < m)%N by lia.
    by rewrite e nth_iota; lia.
  have -> : (k < m)%N = false by lia.
  have -> : (k == m) = false by lia.
  by rewrite nth_iota; lia.
by rewrite index_uniq // sz.
Qed.

Lemma dematricizeK A m : nwf A -> (m < ndim A)%N ->
  (do B <- matricize A [:: m] false; dematricize B m (nshape A)) = Ok A.
Proof.
move=> wA; rewrite /ndim => ml; have [B -> [wB sB gB]] := matricize_mode wA ml.
rewrite [X in X = _]/= /dematricize.
have -> : [seq nth 0%N (nshape A) i | i <- iota 0 (size (nshape A)) & i != m] = del m (nshape A).
  have -> : [seq i <- iota 0 (size (nshape A)) | i != m] = [seq i <- iota 0 (size (nshape A)) | i \notin [:: m]].
    by apply: eq_filter => i; rewrite inE.
  by rewrite others // map_others.
have dB : dim B 0 = nth 0%N (nshape A) m by rewrite /dim sB.
have P : prods (dim B 0 :: del m (nshape A)) = prods (nshape B).
  by rewrite dB sB /= muln1.
have [C -> [wC sC gC]] := reshape_spec wB P.
rewrite [X in X = _]/= -/(ins m 0%N _).
set d := size (nshape A) in ml *.
have dC : ndim C = d by rewrite /ndim sC /= size_del //; rewrite /d in ml *; lia.
have e0 : iota 0 d = 0%N :: iota 1 d.-1 by case: (d) ml.
rewrite /transpose dC e0 (perm_ins0 ml) -e0.
congr Ok; apply: nd_ext => //; first exact: nwf_tab.
  apply: (@eq_from_nth _ 0%N); rewrite [nshape (tab _ _)]/= size_map size_ins ?size_iota //; try lia.
  move=> k kd; rewrite (nth_map 0%N) ?size_ins ?size_iota //; try lia.
  rewrite nth_ins ?size_iota; last by lia.
  rewrite /dim sC dB; case: (ltnP k m) => km.
    by rewrite nth_iota ?add1n /= ?nth_del ?km //; lia.
  case: eqP => [->//|nk].
  rewrite nth_iota; last by lia.
  by rewrite add1n /= nth_del // ifF ?prednK //; lia.
move=> i; rewrite [nshape (tab _ _)]/= => hi; rewrite get_tab //.
have si : size i = d by rewrite (inb_size hi) size_map size_ins size_iota; lia.
have -> : [seq nth 0%N i (index k (ins m 0%N (iota 1 d.-1))) | k <- iota 0 d] = nth 0%N i m :: del m i.
  apply: (@eq_from_nth _ 0%N); first by rewrite size_map size_iota /= size_del si; lia.
  move=> k; rewrite size_map size_iota => kd.
  rewrite (nth_map 0%N) ?size_iota // nth_iota // add0n index_ins0 //.
  case: k kd => [|k] kd //=; rewrite nth_del ?si //.
  by case: ltnP.
have hA : inb (nshape A) i.
  move: hi; congr inb; apply: (@eq_from_nth _ 0%N); rewrite size_map size_ins ?size_iota //; try lia.
  move=> k kd; rewrite (nth_map 0%N) ?size_ins ?size_iota //; try lia.
  rewrite nth_ins ?size_iota; last by lia.
  rewrite /dim sC dB; case: (ltnP k m) => km.
    by rewrite nth_iota ?add1n /= ?nth_del ?km //; lia.
  case: eqP => [->//|nk].
  rewrite nth_iota; last by lia.
  by rewrite add1n /= nth_del // ifF ?prednK //; lia.
have hj : inb (dim A m :: del m (nshape A)) (nth 0%N i m :: del m i).
  rewrite /= /dim (inb_nth hA ml) /=; apply/inbP; rewrite !size_del ?si //; split=> // k kl.
  rewrite !nth_del ?si //; case: (ltnP k m) => km; apply: inb_nth => //; rewrite -/d; lia.
rewrite (gC _ [:: nth 0%N i m; ravel (del m (nshape A)) (del m i)]); last first.
  by rewrite sB /= !muln1 addn0.
by rewrite gB // delK // si.
Qed.

(* grouping leading modes is a plain reshape *)
Lemma matricize_lead A k (mat_shape : bool) : nwf A -> (k <= ndim A)%N ->
  matricize A (iota 0 k) mat_shape =
   Ok (Nd ((if mat_shape then [:: prods (take k (nshape A))] else take k (nshape A))
           ++ [:: prods (drop k (nshape A))]) (ndata A)).
Proof.
move=> wA kl; rewrite /matricize.
have -> : iota 0 k ++ [seq i <- iota 0 (ndim A) | i \notin iota 0 k] = iota 0 (ndim A).
  have e : ndim A = (k + (ndim A - k))%N by lia.
  rewrite e iotaD filter_cat add0n; congr cat.
  rewrite (_ : filter _ (iota 0 k) = [::]) ?cat0s.
    by apply/all_filterP/allP => i; rewrite !mem_iota; lia.
  apply/eqP; rewrite -[_ == _]negbK -has_filter; apply/negP => /hasP[i].
  by rewrite !mem_iota; lia.
have -> : transpose A (iota 0 (ndim A)) = Ok A.
  rewrite /transpose perm_refl; congr Ok.
  have e : [seq dim A k0 | k0 <- iota 0 (ndim A)] = nshape A by rewrite /dim /ndim map_nth_iota0 // take_size.
  rewrite e -[RHS]tab_get //; apply: tab_ext => i hi; congr get.
  apply: (@eq_from_nth _ 0%N); rewrite size_map size_iota ?(inb_size hi) //.
  move=> j jl; rewrite (nth_map 0%N) ?size_iota // nth_iota // add0n idx_iota ?subn0 //.
rewrite [X in X = _]/= size_iota /reshape.
have -> : prods ((if mat_shape then [:: prods (take k (nshape A))] else take k (nshape A))
           ++ [:: prods (drop k (nshape A))]) = prods (nshape A).
  by rewrite prods_cat -[in RHS](cat_take_drop k (nshape A)) prods_cat /= muln1; case: mat_shape; rewrite /= ?muln1.
by rewrite eqxx.
Qed.
End Mat.
