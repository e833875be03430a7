(* Containers: uniqueness, addition, transposition, block assembly *)
From Coq Require Import String Ascii NArith.
From mathcomp Require Import all_ssreflect all_algebra.
From mathcomp Require Import zify.
From Verif Require Import Py Nd NdThy Ein Utils Tensor Hash Sketch Spec ChainThy TensorThy TensorThy2 RoundThy SkSpec SkThy2.
Set Implicit Arguments. Unset Strict Implicit. Unset Printing Implicit Defensive.
Import GRing.Theory.
Local Open Scope ring_scope.

Section Cont.
Variable R : comRingType.
Notation arr := (nd R).
Notation C0 := (C0 R).
Notation container := (container R).
Implicit Types (n mu : nat) (f g : nat -> seq nat -> nat -> R) (lr rr : nat -> nat) (shape : seq nat)
  (x y : seq nat -> R) (s : container).

Lemma Omega_of_ext (f f' g g' : seq nat -> nat -> R) shape x x' mu a a' b b' :
  (forall i, inb (take mu.+1 shape) i -> f i a = f' i a') ->
  (forall j, inb (drop mu.+1 shape) j -> g j b = g' j b') ->
  (forall i, inb shape i -> x i = x' i) ->
  Omega_of f g shape x mu a b = Omega_of f' g' shape x' mu a' b'.
Proof.
move=> hf hg hx; apply: eq_sum_idx => i hi; apply: eq_sum_idx => j hj; rewrite hf // hg // hx //.
by rewrite -(cat_take_drop mu.+1 shape) inb_cat ?hi //; rewrite (inb_size hi).
Qed.

Lemma Psi_of_ext (f f' g g' : seq nat -> nat -> R) shape x x' mu a a' k b b' : (mu < size shape)%N -> (k < nth 0%N shape mu)%N ->
  (forall i, inb (take mu shape) i -> f i a = f' i a') ->
  (forall j, inb (drop mu.+1 shape) j -> g j b = g' j b') ->
  (forall i, inb shape i -> x i = x' i) ->
  Psi_of f g shape x mu a k b = Psi_of f' g' shape x' mu a' k b'.
Proof.
move=> hm hk hf hg hx; apply: eq_sum_idx => i hi; apply: eq_sum_idx => j hj; rewrite hf // hg // hx //.
rewrite -(cat_take_drop mu shape) inb_cat; last by rewrite (inb_size hi).
by rewrite hi (@drop_nth _ 0%N) //= hk.
Qed.

Lemma Omega_ofD (f g : seq nat -> nat -> R) shape x y mu a b :
  Omega_of f g shape (fun i => x i + y i) mu a b = Omega_of f g shape x mu a b + Omega_of f g shape y mu a b.
Proof.
rewrite /Omega_of -sum_idxD; apply: eq_sum_idx => i _; rewrite -sum_idxD; apply: eq_sum_idx => j _.
by rewrite mulrDr mulrDl.
Qed.
Lemma Psi_ofD (f g : seq nat -> nat -> R) shape x y mu a k b :
  Psi_of f g shape (fun i => x i + y i) mu a k b = Psi_of f g shape x mu a k b + Psi_of f g shape y mu a k b.
Proof.
rewrite /Psi_of -sum_idxD; apply: eq_sum_idx => i _; rewrite -sum_idxD; apply: eq_sum_idx => j _.
by rewrite mulrDr mulrDl.
Qed.

Lemma at_left_ext (A : Type) (f f' : nat -> A) z n mu : (forall m, (m < n)%N -> f m = f' m) -> (mu <= n)%N ->
  at_left f z mu = at_left f' z mu.
Proof. by move=> H; case: mu => //= mu hm; apply: H. Qed.
Lemma at_right_ext (A : Type) (f f' : nat -> A) z d mu : (forall m, (m < d.-1)%N -> f m = f' m) ->
  at_right f z d mu = at_right f' z d mu.
Proof. by move=> H; rewrite /at_right; case: ltnP => // hm; apply: H. Qed.

Lemma is_sketch_ext f f' g g' lr lr' rr rr' shape x x' s : let d := size shape in
  (forall mu, (mu < d.-1)%N -> lr mu = lr' mu) -> (forall mu, (mu < d.-1)%N -> rr mu = rr' mu) ->
  (forall mu i c, (mu < d.-1)%N -> inb (take mu.+1 shape) i -> (c < lr mu)%N -> f mu i c = f' mu i c) ->
  (forall mu j c, (mu < d.-1)%N -> inb (drop mu.+1 shape) j -> (c < rr mu)%N -> g mu j c = g' mu j c) ->
  (forall i, inb shape i -> x i = x' i) ->
  is_sketch_with f g lr rr shape x s -> is_sketch_with f' g' lr' rr' shape x' s.
Proof.
move=> d hl hr hf hg hx [s1 s2 s3 s4]; split=> //; rewrite -/d in s1 s2 s3 s4 *.
- move=> mu hm; have [w1 w2 w3] := s3 mu hm.
  have el : at_left lr 1%N mu = at_left lr' 1%N mu.
    by move: hm hl; clear; case: mu => //= mu hm hl; apply: hl; lia.
  have er : at_right rr 1%N d mu = at_right rr' 1%N d mu by apply: at_right_ext.
  rewrite -el -er; split=> // a k b ha hk hb; rewrite w3 //; apply: Psi_of_ext => //.
  + by case: mu hm {w1 w2 w3 el er hk hb} ha => [|mu] hm //= ha i hi; apply: hf => //; clear -hm; lia.
  + move=> j hj; move: hb; rewrite /at_right; case: (ltnP mu d.-1) => // h hb; exact: hg.
- move=> mu hm; have [w1 w2 w3] := s4 mu hm; rewrite -hl // -hr //; split=> // a b ha hb; rewrite w3 //.
  by apply: Omega_of_ext => // [i hi|j hj]; [apply: hf | apply: hg].
Qed.

Lemma eq_from_nthC (l l' : seq arr) n : size l = n -> size l' = n ->
  (forall mu, (mu < n)%N -> nth C0 l mu = nth C0 l' mu) -> l = l'.
Proof. by move=> h1 h2 H; apply: (@eq_from_nth _ C0); rewrite ?h1 ?h2. Qed.

(* the arrays are determined by the specification *)
Lemma is_sketch_unique f g lr rr shape x s s' :
  is_sketch_with f g lr rr shape x s -> is_sketch_with f g lr rr shape x s' ->
  Psi_cores s = Psi_cores s' /\ Omega_mats s = Omega_mats s'.
Proof.
move=> [s1 s2 s3 s4] [t1 t2 t3 t4]; split; [apply: (eq_from_nthC s1 t1)|apply: (eq_from_nthC s2 t2)] => mu hm.
- have [w1 w2 w3] := s3 mu hm; have [v1 v2 v3] := t3 mu hm; apply: nd_ext => //; first by rewrite w2 v2.
  by rewrite w2 => i /inb3P[a [k [b [-> ha hk hb]]]]; rewrite w3 // v3.
- have [w1 w2 w3] := s4 mu hm; have [v1 v2 v3] := t4 mu hm; apply: nd_ext => //; first by rewrite w2 v2.
  by rewrite w2 => i /inb2P[a [b [-> ha hb]]]; rewrite w3 // v3.
Qed.

(* ---- addition ---- *)
Lemma mapM_zipE (T : Type) (x0 : T) (f : T * T -> res T) l l' n (Q : nat -> T -> Prop) :
  size l = n -> size l' = n ->
  (forall mu, (mu < n)%N -> exists2 z, f (nth x0 l mu, nth x0 l' mu) = Ok z & Q mu z) ->
  exists2 m, mapM f (zip l l') = Ok m & size m = n /\ forall mu, (mu < n)%N -> Q mu (nth x0 m mu).
Proof.
elim: n l l' Q => [|n IH] [|a l] [|b l'] Q //=; first by exists [::].
move=> [h1] [h2] H.
have [|z ez qz] := H 0%N; first by [].
have [|m em [sm hm]] := IH l l' (fun mu => Q mu.+1) h1 h2; first by move=> mu hm; apply: (H mu.+1).
exists (z :: m); first by rewrite /= ez /= em.
by split; [rewrite /= sm | case=> [|mu] h //=; apply: hm].
Qed.

Lemma container_addE f g lr rr shape x y s s' : is_sketch_with f g lr rr shape x s -> is_sketch_with f g lr rr shape y s' ->
  exists2 s2, container_add s s' = Ok s2 & is_sketch_with f g lr rr shape (fun i => x i + y i) s2.
Proof.
set d := size shape; move=> [s1 s2 s3 s4] [t1 t2 t3 t4]; rewrite /container_add.
have [|Ps -> [sP hP]] := @mapM_zipE arr C0 (fun p => nadd p.1 p.2) _ _ d (fun mu P =>
    let r1 := at_left lr 1%N mu in let r2 := at_right rr 1%N d mu in
        [/\ nwf P, nshape P = [:: r1; nth 0%N shape mu; r2] &
            forall a k b, (a < r1)%N -> (k < nth 0%N shape mu)%N -> (b < r2)%N ->
              get P [:: a; k; b] = Psi_of (at_left f (one_fun R) mu) (at_right g (one_fun R) d mu) shape (fun i => x i + y i) mu a k b]) s1 t1.
  move=> mu hm; have [w1 w2 w3] := s3 mu hm; have [v1 v2 v3] := t3 mu hm.
  rewrite /= naddE; last by rewrite w2 v2.
  eexists; first by []; rewrite w2; split=> //; first exact: nwf_tab.
  by move=> a k b ha hk hb; rewrite get_tab ?/= ?ha ?hk ?hb // Psi_ofD w3 // v3.
have [|Os -> [sO hO]] := @mapM_zipE arr C0 (fun p => nadd p.1 p.2) _ _ d.-1 (fun mu W =>
        [/\ nwf W, nshape W = [:: lr mu; rr mu] &
            forall a b, (a < lr mu)%N -> (b < rr mu)%N ->
              get W [:: a; b] = Omega_of (f mu) (g mu) shape (fun i => x i + y i) mu a b]) s2 t2.
  move=> mu hm; have [w1 w2 w3] := s4 mu hm; have [v1 v2 v3] := t4 mu hm.
  rewrite /= naddE; last by rewrite w2 v2.
  eexists; first by []; rewrite w2; split=> //; first exact: nwf_tab.
  by move=> a b ha hb; rewrite get_tab ?/= ?ha ?hb // Omega_ofD w3 // v3.
by eexists; first by []; split.
Qed.

(* ---- transposition ---- *)
Lemma mapM_seqE (T : Type) (x0 : T) (f : T -> res T) l n (Q : nat -> T -> Prop) : size l = n ->
  (forall mu, (mu < n)%N -> exists2 z, f (nth x0 l mu) = Ok z & Q mu z) ->
  exists2 m, mapM f l = Ok m & size m = n /\ forall mu, (mu < n)%N -> Q mu (nth x0 m mu).
Proof.
elim: n l Q => [|n IH] [|a l] Q //=; first by exists [::].
move=> [h1] H; have [|z ez qz] := H 0%N; first by [].
have [|m em [sm hm]] := IH l (fun mu => Q mu.+1) h1; first by move=> mu hm; apply: (H mu.+1).
exists (z :: m); first by rewrite /= ez /= em.
by split; [rewrite /= sm | case=> [|mu] h //=; apply: hm].
Qed.

Lemma mul3 (p q r : R) : p * q * r = r * q * p.
Proof. by rewrite mulrC [p * q]mulrC mulrA. Qed.

Lemma Psi_of_rev (f g : seq nat -> nat -> R) shape x mu a k b : (mu < size shape)%N ->
  Psi_of (fun i => g (rev i)) (fun j => f (rev j)) (rev shape) (fun i => x (rev i)) mu a k b =
  Psi_of f g shape x (size shape - mu.+1) b k a.
Proof.
move=> hm; rewrite /Psi_of take_rev drop_rev.
have -> : (size shape - mu = (size shape - mu.+1).+1)%N by clear -hm; lia.
rewrite sum_idx_exch !sum_idx_rev; apply: eq_sum_idx => i _; rewrite sum_idx_rev; apply: eq_sum_idx => j _.
by rewrite !revK rev_cat rev_cons !revK cat_rcons mul3.
Qed.
Lemma Omega_of_rev (f g : seq nat -> nat -> R) shape x mu a b : (mu.+1 < size shape)%N ->
  Omega_of (fun i => g (rev i)) (fun j => f (rev j)) (rev shape) (fun i => x (rev i)) mu a b =
  Omega_of f g shape x (size shape - mu.+2) b a.
Proof.
move=> hm; rewrite /Omega_of take_rev drop_rev.
have -> : (size shape - mu.+1 = (size shape - mu.+2).+1)%N by clear -hm; lia.
rewrite sum_idx_exch !sum_idx_rev; apply: eq_sum_idx => i _; rewrite sum_idx_rev; apply: eq_sum_idx => j _.
by rewrite !revK rev_cat !revK mul3.
Qed.

Lemma container_TE f g lr rr shape x s : (0 < size shape)%N -> is_sketch_with f g lr rr shape x s ->
  let d := size shape in
  exists2 s2, container_T s = Ok s2 &
    is_sketch_with (fun mu i => g (d - mu.+2)%N (rev i)) (fun mu j => f (d - mu.+2)%N (rev j))
      (fun mu => rr (d - mu.+2)%N) (fun mu => lr (d - mu.+2)%N) (rev shape) (fun i => x (rev i)) s2.
Proof.
move=> s0 [s1 s2 s3 s4] d; rewrite -/d in s0 s1 s2 s3 s4; rewrite /container_T.
have al (A : Type) (u : nat -> A) z mu : (mu < d)%N -> at_left (fun m => u (d - m.+2)%N) z mu = at_right u z d (d - mu.+1).
  case: mu => [|mu] hm; rewrite /at_right /=.
    by rewrite (_ : (d - 1 < d.-1)%N = false); [|clear -hm; lia].
  by rewrite (_ : (d - mu.+2 < d.-1)%N = true); [|clear -hm; lia].
have ar (A : Type) (u : nat -> A) z mu : (mu < d)%N -> at_right (fun m => u (d - m.+2)%N) z d mu = at_left u z (d - mu.+1).
  move=> hm; rewrite /at_right; case: ltnP => hd.
    by have -> : (d - mu.+1 = (d - mu.+2).+1)%N by clear -hd; lia.
  by have -> : (d - mu.+1 = 0)%N by clear -hd hm; lia.
have [||Ps -> [sP hP]] := @mapM_seqE arr C0 (fun P => transpose P [:: 2; 1; 0]%N) (rev (Psi_cores s)) d (fun mu P =>
  let: m := (d - mu.+1)%N in
  P = tab3 (at_right rr 1%N d m) (nth 0%N shape m) (at_left lr 1%N m) (fun a k b => get (nth C0 (Psi_cores s) m) [:: b; k; a])).
- by rewrite size_rev s1.
- move=> mu hm; rewrite nth_rev s1 //.
  have [|_ w2 _] := s3 (d - mu.+1)%N; first by clear -hm; lia.
  by rewrite (transpose3 w2); eexists.
eexists; first by []; split=> /=; rewrite ?size_rev ?size_map ?size_rev //.
- move=> mu hm; rewrite hP // al // ar // nth_rev //; have hm' : (d - mu.+1 < d)%N by clear -hm; lia.
  have [_ _ w3] := s3 (d - mu.+1)%N hm'; split=> //; first exact: nwf_tab.
  move=> a k b ha hk hb; rewrite get_tab3 // w3 // -Psi_of_rev //.
  by rewrite -(al _ g) // -(ar _ f) //; apply: Psi_of_ext; rewrite ?size_rev ?nth_rev // => i _; rewrite /at_left /at_right //; case: (mu) => // *; case: ifP.
- move=> mu hm; have hm' : (d - mu.+2 < d.-1)%N by clear -hm; lia.
  rewrite (nth_map C0) ?size_rev ?s2 // nth_rev ?s2 //.
  have -> : (d.-1 - mu.+1 = d - mu.+2)%N by clear -hm; lia.
  have [w1 w2 w3] := s4 (d - mu.+2)%N hm'.
  rewrite (trE w2); split; [exact: nwf_tab|by []|].
  move=> a b ha hb; rewrite get_tab2 // w3 //; rewrite -Omega_of_rev //; clear -hm; lia.
Qed.
End Cont.
