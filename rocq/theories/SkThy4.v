(* Values of Omega and Psi for sums of tensors in any formats. *)
From Coq Require Import String Ascii NArith.
From mathcomp Require Import all_ssreflect all_algebra.
From mathcomp Require Import zify.
From Verif Require Import Py Nd NdThy Ein Utils Tensor Hash Sketch Spec ChainThy TensorThy TensorThy2 GatherThy MatThy SkSpec SkThy1 SkThy2 SkThy3.
Set Implicit Arguments. Unset Strict Implicit. Unset Printing Implicit Defensive.
Import GRing.Theory.
Local Open Scope ring_scope.

Definition all2P (A B : Type) (P : A -> B -> Prop) : seq A -> seq B -> Prop :=
  fix go l m := match l, m with
  | [::], [::] => True
  | x :: l', y :: m' => P x y /\ go l' m'
  | _, _ => False
  end.

Section Val.
Variable R : comRingType.
Notation arr := (nd R).
Notation tensor := (tensor R).
Notation skt := (skt R).
Notation sfun := (seq nat -> nat -> R).
Implicit Types (X : tensor) (n r : nat) (f g : sfun) (F G : tensor -> sfun).

Definition lval X n r f (L : option arr) : Prop := lmat X L n r /\
  forall p c, (p < nbl X n)%N -> (c < r)%N ->
    ogv X L p c = sum_idx (take n (tshape X)) (fun i => lfac X n p i * f i c).
Definition rval X n r g (Rt : option arr) : Prop := rmat X Rt n r /\
  forall q c, (q < nbr X n)%N -> (c < r)%N ->
    ogv X Rt q c = sum_idx (drop n (tshape X)) (fun j => rfac X n q j * g j c).

Lemma swap4 (P Q : nat) (s t : seq nat) (A : nat -> seq nat -> R) (M : nat -> nat -> R)
   (B : nat -> seq nat -> R) (f g : seq nat -> R) (x : seq nat -> seq nat -> R) :
  (forall i j, inb s i -> inb t j ->
     x i j = \sum_(0 <= p < P) \sum_(0 <= q < Q) A p i * M p q * B q j) ->
  \sum_(0 <= p < P) \sum_(0 <= q < Q)
    sum_idx s (fun i => A p i * f i) * M p q * sum_idx t (fun j => B q j * g j) =
  sum_idx s (fun i => sum_idx t (fun j => f i * x i j * g j)).
Proof.
move=> H.
transitivity (\sum_(0 <= p < P) \sum_(0 <= q < Q) sum_idx s (fun i => sum_idx t (fun j =>
    f i * (A p i * M p q * B q j) * g j))).
  apply: eq_bigr => p _; apply: eq_bigr => q _.
  rewrite -!sum_idxZr; apply: eq_sum_idx => i _; rewrite -sum_idxZ; apply: eq_sum_idx => j _.
  rewrite -!mulrA mulrCA; congr (_ * _); rewrite !mulrA; congr (_ * _).
under eq_bigr => p _ do rewrite -sum_idx_big.
rewrite -sum_idx_big; apply: eq_sum_idx => i hi.
under eq_bigr => p _ do rewrite -sum_idx_big.
rewrite -sum_idx_big; apply: eq_sum_idx => j hj.
rewrite H // big_distrr big_distrl /=; apply: eq_bigr => p _.
by rewrite big_distrr big_distrl.
Qed.

Lemma omega_valE nr X n r1 r2 f g L Rt a b : leaf X -> wf_gen nr X -> (n < size (tshape X))%N ->
  lval X n r1 f (Some L) -> rval X n r2 g (Some Rt) -> (a < r1)%N -> (b < r2)%N ->
  raw_omega X n L Rt a b =
  sum_idx (take n (tshape X)) (fun i => sum_idx (drop n (tshape X)) (fun j =>
    f i a * den X (i ++ j) * g j b)).
Proof.
move=> lf w nl [_ hL] [_ hR] ha hb; rewrite /raw_omega.
rewrite -(@swap4 (nbl X n) (nbr X n) _ _ (lfac X n) (bond X n) (rfac X n) (fun i => f i a) (fun j => g j b)
    (fun i j => den X (i ++ j))); last first.
  by move=> i j hi hj; exact: (den_bond lf w (ltnW nl) hi hj).
apply: eq_big_nat => p /andP[_ hp]; apply: eq_big_nat => q /andP[_ hq].
by rewrite -(hL p a hp ha) -(hR q b hq hb).
Qed.

Lemma psi_valE nr X n r1 r2 f g L Rt a k b : leaf X -> wf_gen nr X -> (n < size (tshape X))%N ->
  lval X n r1 f L -> rval X n.+1 r2 g Rt -> (a < r1)%N -> (b < r2)%N ->
  (k < nth 0%N (tshape X) n)%N ->
  raw_psi X n L Rt a k b =
  sum_idx (take n (tshape X)) (fun i => sum_idx (drop n.+1 (tshape X)) (fun j =>
    f i a * den X (i ++ k :: j) * g j b)).
Proof.
move=> lf w nl [_ hL] [_ hR] ha hb hk; rewrite /raw_psi.
rewrite -(@swap4 (nbl X n) (nbr X n.+1) _ _ (lfac X n) (fun p q => mid X n p k q) (rfac X n.+1)
   (fun i => f i a) (fun j => g j b) (fun i j => den X (i ++ k :: j))); last first.
  by move=> i j hi hj; exact: (den_mid lf w nl hi hk hj).
apply: eq_big_nat => p /andP[_ hp]; apply: eq_big_nat => q /andP[_ hq].
by rewrite -(hL p a hp ha) -(hR q b hq hb).
Qed.

(* the contractions of the summands of a (nested) sum; [F x] is the functional for leaf x *)
Definition spreado (m : nat) (S0 : option skt) : seq (option skt) :=
  match S0 with None => nseq m None | Some (Node l) => map Some l | Some (Leaf _) => [::] end.
Fixpoint lsk n r F X (S0 : option skt) : Prop :=
  match X with
  | TSum _ Xs => (if S0 is Some (Leaf _) then False else True) /\
                 all2P (fun x y => lsk n r F x y) Xs (spreado (size Xs) S0)
  | _ => match S0 with
         | None => lval X n r (F X) None
         | Some (Leaf A) => lval X n r (F X) (Some A)
         | Some (Node _) => False
         end
  end.
Fixpoint rsk n r G X (S0 : option skt) : Prop :=
  match X with
  | TSum _ Xs => (if S0 is Some (Leaf _) then False else True) /\
                 all2P (fun x y => rsk n r G x y) Xs (spreado (size Xs) S0)
  | _ => match S0 with
         | None => rval X n r (G X) None
         | Some (Leaf A) => rval X n r (G X) (Some A)
         | Some (Node _) => False
         end
  end.

Fixpoint sk_omega F G mu X a b : R :=
  match X with
  | TSum _ Xs => (fix go l := if l is x :: l' then sk_omega F G mu x a b + go l' else 0) Xs
  | _ => Omega_of (F X) (G X) (tshape X) (den X) mu a b
  end.
Fixpoint sk_psi F G mu X a k b : R :=
  match X with
  | TSum _ Xs => (fix go l := if l is x :: l' then sk_psi F G mu x a k b + go l' else 0) Xs
  | _ => Psi_of (F X) (G X) (tshape X) (den X) mu a k b
  end.
Lemma sk_omega_sum F G mu s Xs a b : sk_omega F G mu (TSum s Xs) a b = \sum_(x <- Xs) sk_omega F G mu x a b.
Proof. by elim: Xs => [|x Xs /= ->]; rewrite ?big_nil ?big_cons. Qed.
Lemma sk_psi_sum F G mu s Xs a k b : sk_psi F G mu (TSum s Xs) a k b = \sum_(x <- Xs) sk_psi F G mu x a k b.
Proof. by elim: Xs => [|x Xs /= ->]; rewrite ?big_nil ?big_cons. Qed.

Lemma Omega_of_sum f g s (Xs : seq tensor) (x : tensor -> seq nat -> R) mu a b :
  Omega_of f g s (fun i => \sum_(y <- Xs) x y i) mu a b = \sum_(y <- Xs) Omega_of f g s (x y) mu a b.
Proof.
rewrite /Omega_of -sum_idx_big; apply: eq_sum_idx => i _; rewrite -sum_idx_big; apply: eq_sum_idx => j _.
by rewrite big_distrr big_distrl.
Qed.
Lemma Psi_of_sum f g s (Xs : seq tensor) (x : tensor -> seq nat -> R) mu a k b :
  Psi_of f g s (fun i => \sum_(y <- Xs) x y i) mu a k b = \sum_(y <- Xs) Psi_of f g s (x y) mu a k b.
Proof.
rewrite /Psi_of -sum_idx_big; apply: eq_sum_idx => i _; rewrite -sum_idx_big; apply: eq_sum_idx => j _.
by rewrite big_distrr big_distrl.
Qed.

(* all leaves satisfy P *)
Fixpoint leaves (P : tensor -> bool) X : bool :=
  if X is TSum _ Xs then all (leaves P) Xs else P X.

Lemma in_mem (T : Type) (P : T -> bool) (l : seq T) x : all P l -> List.In x l -> P x.
Proof. by elim: l => //= y l IH /andP[Py Pl] [<-|/(IH Pl)]. Qed.
Lemma eq_big_in (T : Type) (l : seq T) (f g : T -> R) :
  (forall x, List.In x l -> f x = g x) -> \sum_(x <- l) f x = \sum_(x <- l) g x.
Proof.
elim: l => [|x l IH] H; rewrite ?big_nil ?big_cons // H; last by left.
by congr (_ + _); apply: IH => y hy; apply: H; right.
Qed.

(* when the functionals do not depend on the format, the sketch is that of the sum *)
Lemma sk_omegaE nr P F G f g mu X a b : wf_gen nr X -> leaves P X ->
  (forall x, P x -> F x = f /\ G x = g) ->
  sk_omega F G mu X a b = Omega_of f g (tshape X) (den X) mu a b.
Proof.
move=> w hP HH; elim/tensor_ind': X w hP => [c|s i v|cs|cs|fs c|s Xs IH] w hP;
  try by have [e1 e2] := HH _ hP; rewrite /= e1 e2.
rewrite sk_omega_sum (_ : Omega_of f g _ (den (TSum s Xs)) _ _ _ =
  Omega_of f g s (fun i => \sum_(y <- Xs) den y i) mu a b); last first.
  by rewrite /Omega_of; apply: eq_sum_idx => i _; apply: eq_sum_idx => j _; rewrite den_sum.
rewrite Omega_of_sum; apply: eq_big_in => x hx; rewrite wf_sumE in w.
have /andP[wx /eqP sx] := in_mem (proj2 (andP w)) hx.
by rewrite IH // ?sx //; apply: in_mem hP hx.
Qed.
Lemma sk_psiE nr P F G f g mu X a k b : wf_gen nr X -> leaves P X ->
  (forall x, P x -> F x = f /\ G x = g) ->
  sk_psi F G mu X a k b = Psi_of f g (tshape X) (den X) mu a k b.
Proof.
move=> w hP HH; elim/tensor_ind': X w hP => [c|s i v|cs|cs|fs c|s Xs IH] w hP;
  try by have [e1 e2] := HH _ hP; rewrite /= e1 e2.
rewrite sk_psi_sum (_ : Psi_of f g _ (den (TSum s Xs)) _ _ _ _ =
  Psi_of f g s (fun i => \sum_(y <- Xs) den y i) mu a k b); last first.
  by rewrite /Psi_of; apply: eq_sum_idx => i _; apply: eq_sum_idx => j _; rewrite den_sum.
rewrite Psi_of_sum; apply: eq_big_in => x hx; rewrite wf_sumE in w.
have /andP[wx /eqP sx] := in_mem (proj2 (andP w)) hx.
by rewrite IH // ?sx //; apply: in_mem hP hx.
Qed.

Lemma omega_skE_leaf nr F G mu X r1 r2 L Rt : leaf X -> wf_gen nr X -> (mu.+1 < size (tshape X))%N ->
  lval X mu.+1 r1 (F X) (Some L) -> rval X mu.+1 r2 (G X) (Some Rt) ->
  omega X mu [:: r1; r2] (Leaf L) (Leaf Rt) = Ok (tab2 r1 r2 (sk_omega F G mu X)).
Proof.
move=> lf w hn hL hR.
have -> : omega X mu [:: r1; r2] (Leaf L) (Leaf Rt) = omega_leaf X mu L Rt by case: X lf {w hn hL hR}.
have -> : sk_omega F G mu X = Omega_of (F X) (G X) (tshape X) (den X) mu by case: X lf {w hn hL hR}.
rewrite (@omega_rawE _ nr _ _ r1 r2) //; [|by case: hL => /andP[]|by case: hR => /andP[]].
by congr Ok; apply: tab2_ext => a b ha hb; exact: (omega_valE lf w hn hL hR).
Qed.
Lemma psi_skE_leaf nr F G mu X r1 r2 L Rt : leaf X -> wf_gen nr X -> (mu < size (tshape X))%N ->
  (1 < size (tshape X))%N ->
  lval X mu r1 (F X) L -> rval X mu.+1 r2 (G X) Rt ->
  psi X mu [:: r1; nth 0%N (tshape X) mu; r2] (omap (@Leaf R) L) (omap (@Leaf R) Rt) =
  Ok (tab3 r1 (nth 0%N (tshape X) mu) r2 (sk_psi F G mu X)).
Proof.
move=> lf w hn hs hL hR.
have -> : psi X mu [:: r1; nth 0%N (tshape X) mu; r2] (omap (@Leaf R) L) (omap (@Leaf R) Rt) =
  psi_leaf X mu [:: r1; nth 0%N (tshape X) mu; r2] L Rt by case: X L Rt lf {w hn hs hL hR} => // [?|???|?|?|??] [?|] [?|] //.
have -> : sk_psi F G mu X = Psi_of (F X) (G X) (tshape X) (den X) mu by case: X lf {w hn hs hL hR}.
rewrite (@psi_rawE _ nr _ _ r1 r2) //; [|by case: hL|by case: hR].
by congr Ok; apply: tab3_ext => a k b ha hk hb; exact: (psi_valE lf w hn hL hR).
Qed.

Lemma omega_skE nr F G mu X r1 r2 L Rt : wf_gen nr X -> (mu.+1 < size (tshape X))%N ->
  lsk mu.+1 r1 F X (Some L) -> rsk mu.+1 r2 G X (Some Rt) ->
  omega X mu [:: r1; r2] L Rt = Ok (tab2 r1 r2 (sk_omega F G mu X)).
Proof.
elim/tensor_ind': X L Rt => [c|s i v|cs|cs|fs c|s Xs IH] L Rt w hn.
1-5: by case: L Rt => [L|l] [Rt|l'] // hL hR; apply: (omega_skE_leaf (nr := nr)).
case: L Rt => [L|ls] [Rt|rs] [hL1 hL] [hR1 hR] //; rewrite /= in hL hR *.
set go := (fix go (acc : arr) xs ls rs {struct xs} := match xs, ls, rs with
            | x :: xs', l :: ls', r :: rs' =>
                do w <- omega x mu [:: r1; r2] l r; do acc' <- iadd acc w; go acc' xs' ls' rs'
            | _, _, _ => Ok acc end).
rewrite wf_sumE in w; case/andP: w => _ w; rewrite /= in hn.
suff L (f : nat -> nat -> R) : go (tab2 r1 r2 f) Xs ls rs =
    Ok (tab2 r1 r2 (fun a b => f a b + \sum_(x <- Xs) sk_omega F G mu x a b)).
  have -> : zeros R [:: r1; r2] = tab2 r1 r2 (fun _ _ => 0) by [].
  by rewrite L; congr Ok; apply: tab2_ext => a b _ _; rewrite add0r -(sk_omega_sum F G mu s Xs).
elim: Xs IH w ls rs hL hR f => [|x Xs IHl] IH w [|l ls] [|r rs] //= hL hR f.
  by congr Ok; apply: tab2_ext => a b _ _; rewrite big_nil addr0.
case/andP: w => /andP[wx /eqP sx] w; case: hL => hl hL; case: hR => hr hR.
rewrite (IH x _ l r wx _ hl hr); [|by left|by rewrite sx].
rewrite [bind (Ok _) _]/= iaddE // [bind (Ok _) _]/=.
have -> : tab (nshape (tab2 r1 r2 f)) (fun i => get (tab2 r1 r2 f) i + get (tab2 r1 r2 (sk_omega F G mu x)) i) =
   tab2 r1 r2 (fun a b => f a b + sk_omega F G mu x a b).
  by apply: tab_ext => y /inb2P[a [b [-> ha hb]]]; rewrite !get_tab2.
rewrite IHl //; last by move=> y hy; apply: IH; right.
by congr Ok; apply: tab2_ext => a b _ _; rewrite big_cons addrA.
Qed.

Lemma psi_skE nr F G mu X r1 r2 L Rt : wf_gen nr X -> (mu < size (tshape X))%N ->
  (1 < size (tshape X))%N -> lsk mu r1 F X L -> rsk mu.+1 r2 G X Rt ->
  psi X mu [:: r1; nth 0%N (tshape X) mu; r2] L Rt =
    Ok (tab3 r1 (nth 0%N (tshape X) mu) r2 (sk_psi F G mu X)).
Proof.
elim/tensor_ind': X L Rt => [c|s i v|cs|cs|fs c|s Xs IH] L Rt w hn hs.
1-5: case: L Rt => [[L|l]|] [[Rt|l']|] // hL hR; first [by apply: (@psi_skE_leaf nr F G mu _ r1 r2 (Some L) (Some Rt))
  | by apply: (@psi_skE_leaf nr F G mu _ r1 r2 (Some L) None) | by apply: (@psi_skE_leaf nr F G mu _ r1 r2 None (Some Rt))
  | by apply: (@psi_skE_leaf nr F G mu _ r1 r2 None None)].
case=> hL1 hL [hR1 hR].
pose go := (fix go (acc : arr) xs ls rs {struct xs} := match xs, ls, rs with
            | x :: xs', l :: ls', r :: rs' =>
                do w <- psi x mu [:: r1; nth 0%N s mu; r2] l r; do acc' <- iadd acc w; go acc' xs' ls' rs'
            | _, _, _ => Ok acc end).
have -> : psi (TSum s Xs) mu [:: r1; nth 0%N (tshape (TSum s Xs)) mu; r2] L Rt =
   go (zeros R [:: r1; nth 0%N s mu; r2]) Xs (spreado (size Xs) L) (spreado (size Xs) Rt).
  by case: L hL1 {hL} => [[?|?]|] //= _; case: Rt hR1 {hR} => [[?|?]|].
move: (spreado _ L) (spreado _ Rt) hL hR => ls rs hL hR {hL1 hR1 L Rt}.
rewrite wf_sumE in w; case/andP: w => _ w; rewrite /= in hn hs *.
suff L (f : nat -> nat -> nat -> R) : go (tab3 r1 (nth 0%N s mu) r2 f) Xs ls rs =
    Ok (tab3 r1 (nth 0%N s mu) r2 (fun a k b => f a k b + \sum_(x <- Xs) sk_psi F G mu x a k b)).
  have -> : zeros R [:: r1; nth 0%N s mu; r2] = tab3 r1 (nth 0%N s mu) r2 (fun _ _ _ => 0) by [].
  by rewrite L; congr Ok; apply: tab3_ext => a k b _ _ _; rewrite add0r -(sk_psi_sum F G mu s Xs).
elim: Xs IH w ls rs hL hR f => [|x Xs IHl] IH w [|l ls] [|r rs] //= hL hR f.
  by congr Ok; apply: tab3_ext => a k b _ _ _; rewrite big_nil addr0.
case/andP: w => /andP[wx /eqP sx] w; case: hL => hl hL; case: hR => hr hR.
have := IH x _ l r wx _ _ hl hr; rewrite sx => -> //; last by left.
rewrite [bind (Ok _) _]/= iaddE // [bind (Ok _) _]/=.
have -> : tab (nshape (tab3 r1 (nth 0%N s mu) r2 f)) (fun i => get (tab3 r1 (nth 0%N s mu) r2 f) i +
     get (tab3 r1 (nth 0%N s mu) r2 (sk_psi F G mu x)) i) =
   tab3 r1 (nth 0%N s mu) r2 (fun a k b => f a k b + sk_psi F G mu x a k b).
  by apply: tab_ext => y /inb3P[a [k [b [-> ha hk hb]]]]; rewrite !get_tab3.
rewrite IHl //; last by move=> y hy; apply: IH; right.
by congr Ok; apply: tab3_ext => a k b _ _ _; rewrite big_cons addrA.
Qed.
End Val.
