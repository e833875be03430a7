(* One lemma per einsum pattern used in /repo, all derived from [einsum_lblE]. *)
From Coq Require Import String Ascii.
From mathcomp Require Import all_ssreflect all_algebra.
From mathcomp Require Import zify.
From Verif Require Import Py Nd NdThy.
Set Implicit Arguments. Unset Strict Implicit. Unset Printing Implicit Defensive.
Import GRing.Theory.
Local Open Scope ring_scope.

Section Tabs.
Variable R : ringType.
Implicit Types (A B C : nd R).

Definition tab1 n (f : nat -> R) : nd R := tab [:: n] (fun i => f (nth 0%N i 0)).
Definition tab2 m n (f : nat -> nat -> R) : nd R :=
  tab [:: m; n] (fun i => f (nth 0%N i 0) (nth 0%N i 1)).
Definition tab3 m n p (f : nat -> nat -> nat -> R) : nd R :=
  tab [:: m; n; p] (fun i => f (nth 0%N i 0) (nth 0%N i 1) (nth 0%N i 2)).
Definition tab4 m n p q (f : nat -> nat -> nat -> nat -> R) : nd R :=
  tab [:: m; n; p; q] (fun i => f (nth 0%N i 0) (nth 0%N i 1) (nth 0%N i 2) (nth 0%N i 3)).
Definition tab5 m n p q r (f : nat -> nat -> nat -> nat -> nat -> R) : nd R :=
  tab [:: m; n; p; q; r] (fun i => f (nth 0%N i 0) (nth 0%N i 1) (nth 0%N i 2)
                                     (nth 0%N i 3) (nth 0%N i 4)).
Lemma get_tab1 n f i : (i < n)%N -> get (tab1 n f) [:: i] = f i.
Proof. by move=> Hi; rewrite get_tab //= Hi. Qed.
Lemma get_tab2 m n f i j : (i < m)%N -> (j < n)%N -> get (tab2 m n f) [:: i; j] = f i j.
Proof. by move=> Hi Hj; rewrite get_tab //= Hi Hj. Qed.
Lemma get_tab3 m n p f i j k : (i < m)%N -> (j < n)%N -> (k < p)%N ->
  get (tab3 m n p f) [:: i; j; k] = f i j k.
Proof. by move=> Hi Hj Hk; rewrite get_tab //= Hi Hj Hk. Qed.
Lemma get_tab4 m n p q f i j k l :
  (i < m)%N -> (j < n)%N -> (k < p)%N -> (l < q)%N ->
  get (tab4 m n p q f) [:: i; j; k; l] = f i j k l.
Proof. by move=> Hi Hj Hk Hl; rewrite get_tab //= Hi Hj Hk Hl. Qed.
Lemma get_tab5 m n p q r f i j k l o :
  (i < m)%N -> (j < n)%N -> (k < p)%N -> (l < q)%N -> (o < r)%N ->
  get (tab5 m n p q r f) [:: i; j; k; l; o] = f i j k l o.
Proof. by move=> Hi Hj Hk Hl Ho; rewrite get_tab //= Hi Hj Hk Hl Ho. Qed.

Lemma inb1P n x : inb [:: n] x -> exists2 i, x = [:: i] & (i < n)%N.
Proof. by case: x => [|i [|? ?]] //=; rewrite ?andbT ?andbF // => Hi; exists i. Qed.
Lemma inb2P m n x : inb [:: m; n] x -> exists i j, [/\ x = [:: i; j], (i < m)%N & (j < n)%N].
Proof.
case: x => [|i x] //= /andP[Hi /inb1P[j -> Hj]]; by exists i, j.
Qed.
Lemma inb3P m n p x : inb [:: m; n; p] x ->
  exists i j k, [/\ x = [:: i; j; k], (i < m)%N, (j < n)%N & (k < p)%N].
Proof.
case: x => [|i x] //= /andP[Hi /inb2P[j [k [-> Hj Hk]]]]; by exists i, j, k.
Qed.
Lemma inb4P m n p q x : inb [:: m; n; p; q] x ->
  exists i j k l, [/\ x = [:: i; j; k; l], (i < m)%N, (j < n)%N, (k < p)%N & (l < q)%N].
Proof.
case: x => [|i x] //= /andP[Hi /inb3P[j [k [l [-> Hj Hk Hl]]]]]; by exists i, j, k, l.
Qed.
Lemma inb5P m n p q r x : inb [:: m; n; p; q; r] x ->
  exists i j k l o, [/\ x = [:: i; j; k; l; o], (i < m)%N, (j < n)%N & 
    [/\ (k < p)%N, (l < q)%N & (o < r)%N]].
Proof.
case: x => [|i [|j x]] //=; first by rewrite andbF.
move=> /andP[Hi /andP[Hj /inb3P[k [l [o [-> Hk Hl Ho]]]]]]; by exists i, j, k, l, o.
Qed.

Lemma tab1_ext n f g : (forall i, (i < n)%N -> f i = g i) -> tab1 n f = tab1 n g.
Proof. by move=> H; apply: tab_ext => x /inb1P[i -> Hi]; apply: H. Qed.
Lemma tab2_ext m n f g : (forall i j, (i < m)%N -> (j < n)%N -> f i j = g i j) ->
  tab2 m n f = tab2 m n g.
Proof. by move=> H; apply: tab_ext => x /inb2P[i [j [-> Hi Hj]]]; apply: H. Qed.
Lemma tab3_ext m n p f g :
  (forall i j k, (i < m)%N -> (j < n)%N -> (k < p)%N -> f i j k = g i j k) ->
  tab3 m n p f = tab3 m n p g.
Proof.
by move=> H; apply: tab_ext => x /inb3P[i [j [k [-> Hi Hj Hk]]]]; apply: H.
Qed.

Lemma tab2_get A m n : nwf A -> nshape A = [:: m; n] -> A = tab2 m n (fun i j => get A [:: i; j]).
Proof.
move=> H E; rewrite -{1}(tab_get H) E; by apply: tab_ext => x /inb2P[i [j [-> _ _]]].
Qed.
Lemma tab3_get A m n p : nwf A -> nshape A = [:: m; n; p] ->
  A = tab3 m n p (fun i j k => get A [:: i; j; k]).
Proof.
move=> H E; rewrite -{1}(tab_get H) E; by apply: tab_ext => x /inb3P[i [j [k [-> _ _ _]]]].
Qed.
Lemma nwf_tab2 m n f : nwf (tab2 m n f). Proof. exact: nwf_tab. Qed.
Lemma nwf_tab3 m n p f : nwf (tab3 m n p f). Proof. exact: nwf_tab. Qed.
End Tabs.

Definition dmof (l : seq (string * nat)) : label -> nat :=
  lookup [seq (if p.1 is String c _ then c else " "%char, p.2) | p <- l].

Ltac einsum_tac l :=
  rewrite /einsum;
  match goal with |- context [parse_ins [::] ?s] =>
    let v := eval vm_compute in (parse_ins [::] s) in
    change (parse_ins [::] s) with v end;
  rewrite (@einsum_lblE _ (dmof l)) //; last (by rewrite /shapes_ok /=; do ?match goal with H : nshape _ = _ |- _ => rewrite H; clear H end);
  cbv zeta; congr Ok.

Section Patterns.
Variable R : ringType.
Implicit Types (A B C : nd R).
Lemma es_ij_jkl A B ni nj nk nl :
  nshape A = [:: ni; nj] -> nshape B = [:: nj; nk; nl] ->
  einsum "ij,jkl->ikl" [:: A; B] =
  Ok (tab3 ni nk nl (fun xi xk xl =>
    \sum_(0 <= xj < nj) get A [:: xi; xj] * get B [:: xj; xk; xl])).
Proof.
move=> HA HB.
einsum_tac [:: ("i",ni); ("j",nj); ("k",nk); ("l",nl)]%string.
apply: tab_ext => x /inb3P[xi [xk [xl [-> _ _ _]]]] /=.
rewrite sumrE; apply: eq_bigr => xj _.
by rewrite /= mulr1.
Qed.

Lemma es_ijk_kl A B ni nj nk nl :
  nshape A = [:: ni; nj; nk] -> nshape B = [:: nk; nl] ->
  einsum "ijk,kl->ijl" [:: A; B] =
  Ok (tab3 ni nj nl (fun xi xj xl =>
    \sum_(0 <= xk < nk) get A [:: xi; xj; xk] * get B [:: xk; xl])).
Proof.
move=> HA HB.
einsum_tac [:: ("i",ni); ("j",nj); ("k",nk); ("l",nl)]%string.
apply: tab_ext => x /inb3P[xi [xj [xl [-> _ _ _]]]] /=.
rewrite sumrE; apply: eq_bigr => xk _.
by rewrite /= mulr1.
Qed.

Lemma es_ijk_ljm A B ni nj nk nl nm :
  nshape A = [:: ni; nj; nk] -> nshape B = [:: nl; nj; nm] ->
  einsum "ijk,ljm->km" [:: A; B] =
  Ok (tab2 nk nm (fun xk xm =>
    \sum_(0 <= xi < ni) \sum_(0 <= xj < nj) \sum_(0 <= xl < nl) get A [:: xi; xj; xk] * get B [:: xl; xj; xm])).
Proof.
move=> HA HB.
einsum_tac [:: ("i",ni); ("j",nj); ("k",nk); ("l",nl); ("m",nm)]%string.
apply: tab_ext => x /inb2P[xk [xm [-> _ _]]] /=.
rewrite sumrE; apply: eq_bigr => xi _.
rewrite sumrE; apply: eq_bigr => xj _.
rewrite sumrE; apply: eq_bigr => xl _.
by rewrite /= mulr1.
Qed.

Lemma es_ij_ika_jkb A B C ni nj nk na nb :
  nshape A = [:: ni; nj] -> nshape B = [:: ni; nk; na] -> nshape C = [:: nj; nk; nb] ->
  einsum "ij,ika,jkb->ab" [:: A; B; C] =
  Ok (tab2 na nb (fun xa xb =>
    \sum_(0 <= xi < ni) \sum_(0 <= xj < nj) \sum_(0 <= xk < nk) get A [:: xi; xj] * (get B [:: xi; xk; xa] * get C [:: xj; xk; xb]))).
Proof.
move=> HA HB HC.
einsum_tac [:: ("i",ni); ("j",nj); ("k",nk); ("a",na); ("b",nb)]%string.
apply: tab_ext => x /inb2P[xa [xb [-> _ _]]] /=.
rewrite sumrE; apply: eq_bigr => xi _.
rewrite sumrE; apply: eq_bigr => xj _.
rewrite sumrE; apply: eq_bigr => xk _.
by rewrite /= mulr1.
Qed.

Lemma es_ijk_jl A B ni nj nk nl :
  nshape A = [:: ni; nj; nk] -> nshape B = [:: nj; nl] ->
  einsum "ijk,jl->ilk" [:: A; B] =
  Ok (tab3 ni nl nk (fun xi xl xk =>
    \sum_(0 <= xj < nj) get A [:: xi; xj; xk] * get B [:: xj; xl])).
Proof.
move=> HA HB.
einsum_tac [:: ("i",ni); ("j",nj); ("k",nk); ("l",nl)]%string.
apply: tab_ext => x /inb3P[xi [xl [xk [-> _ _ _]]]] /=.
rewrite sumrE; apply: eq_bigr => xj _.
by rewrite /= mulr1.
Qed.

Lemma es_ij_jkl_ml A B C ni nj nk nl nm :
  nshape A = [:: ni; nj] -> nshape B = [:: nj; nk; nl] -> nshape C = [:: nm; nl] ->
  einsum "ij,jkl,ml->ikm" [:: A; B; C] =
  Ok (tab3 ni nk nm (fun xi xk xm =>
    \sum_(0 <= xj < nj) \sum_(0 <= xl < nl) get A [:: xi; xj] * (get B [:: xj; xk; xl] * get C [:: xm; xl]))).
Proof.
move=> HA HB HC.
einsum_tac [:: ("i",ni); ("j",nj); ("k",nk); ("l",nl); ("m",nm)]%string.
apply: tab_ext => x /inb3P[xi [xk [xm [-> _ _ _]]]] /=.
rewrite sumrE; apply: eq_bigr => xj _.
rewrite sumrE; apply: eq_bigr => xl _.
by rewrite /= mulr1.
Qed.

Lemma es_ji_il A B nj ni nl :
  nshape A = [:: nj; ni] -> nshape B = [:: ni; nl] ->
  einsum "ji,il->jl" [:: A; B] =
  Ok (tab2 nj nl (fun xj xl =>
    \sum_(0 <= xi < ni) get A [:: xj; xi] * get B [:: xi; xl])).
Proof.
move=> HA HB.
einsum_tac [:: ("j",nj); ("i",ni); ("l",nl)]%string.
apply: tab_ext => x /inb2P[xj [xl [-> _ _]]] /=.
rewrite sumrE; apply: eq_bigr => xi _.
by rewrite /= mulr1.
Qed.

Lemma es_il_kl A B ni nl nk :
  nshape A = [:: ni; nl] -> nshape B = [:: nk; nl] ->
  einsum "il,kl->ik" [:: A; B] =
  Ok (tab2 ni nk (fun xi xk =>
    \sum_(0 <= xl < nl) get A [:: xi; xl] * get B [:: xk; xl])).
Proof.
move=> HA HB.
einsum_tac [:: ("i",ni); ("l",nl); ("k",nk)]%string.
apply: tab_ext => x /inb2P[xi [xk [-> _ _]]] /=.
rewrite sumrE; apply: eq_bigr => xl _.
by rewrite /= mulr1.
Qed.

Lemma es_ij_kj_jm A B C ni nj nk nm :
  nshape A = [:: ni; nj] -> nshape B = [:: nk; nj] -> nshape C = [:: nj; nm] ->
  einsum "ij,kj,jm->ikm" [:: A; B; C] =
  Ok (tab3 ni nk nm (fun xi xk xm =>
    \sum_(0 <= xj < nj) get A [:: xi; xj] * (get B [:: xk; xj] * get C [:: xj; xm]))).
Proof.
move=> HA HB HC.
einsum_tac [:: ("i",ni); ("j",nj); ("k",nk); ("m",nm)]%string.
apply: tab_ext => x /inb3P[xi [xk [xm [-> _ _ _]]]] /=.
rewrite sumrE; apply: eq_bigr => xj _.
by rewrite /= mulr1.
Qed.

Lemma es_ij_jkl_lm A B C ni nj nk nl nm :
  nshape A = [:: ni; nj] -> nshape B = [:: nj; nk; nl] -> nshape C = [:: nl; nm] ->
  einsum "ij,jkl,lm->ikm" [:: A; B; C] =
  Ok (tab3 ni nk nm (fun xi xk xm =>
    \sum_(0 <= xj < nj) \sum_(0 <= xl < nl) get A [:: xi; xj] * (get B [:: xj; xk; xl] * get C [:: xl; xm]))).
Proof.
move=> HA HB HC.
einsum_tac [:: ("i",ni); ("j",nj); ("k",nk); ("l",nl); ("m",nm)]%string.
apply: tab_ext => x /inb3P[xi [xk [xm [-> _ _ _]]]] /=.
rewrite sumrE; apply: eq_bigr => xj _.
rewrite sumrE; apply: eq_bigr => xl _.
by rewrite /= mulr1.
Qed.

Lemma es_ijkl_ajb A B ni nj nk nl na nb :
  nshape A = [:: ni; nj; nk; nl] -> nshape B = [:: na; nj; nb] ->
  einsum "ijkl,ajb->iaklb" [:: A; B] =
  Ok (tab5 ni na nk nl nb (fun xi xa xk xl xb =>
    \sum_(0 <= xj < nj) get A [:: xi; xj; xk; xl] * get B [:: xa; xj; xb])).
Proof.
move=> HA HB.
einsum_tac [:: ("i",ni); ("j",nj); ("k",nk); ("l",nl); ("a",na); ("b",nb)]%string.
apply: tab_ext => x /inb5P[xi [xa [xk [xl [xb [-> _ _ [_ _ _]]]]]]] /=.
rewrite sumrE; apply: eq_bigr => xj _.
by rewrite /= mulr1.
Qed.

Lemma es_ijk_ji A B ni nj nk :
  nshape A = [:: ni; nj; nk] -> nshape B = [:: nj; ni] ->
  einsum "ijk,ji->jk" [:: A; B] =
  Ok (tab2 nj nk (fun xj xk =>
    \sum_(0 <= xi < ni) get A [:: xi; xj; xk] * get B [:: xj; xi])).
Proof.
move=> HA HB.
einsum_tac [:: ("i",ni); ("j",nj); ("k",nk)]%string.
apply: tab_ext => x /inb2P[xj [xk [-> _ _]]] /=.
rewrite sumrE; apply: eq_bigr => xi _.
by rewrite /= mulr1.
Qed.

Lemma es_ijk_ijl A B ni nj nk nl :
  nshape A = [:: ni; nj; nk] -> nshape B = [:: ni; nj; nl] ->
  einsum "ijk,ijl->kl" [:: A; B] =
  Ok (tab2 nk nl (fun xk xl =>
    \sum_(0 <= xi < ni) \sum_(0 <= xj < nj) get A [:: xi; xj; xk] * get B [:: xi; xj; xl])).
Proof.
move=> HA HB.
einsum_tac [:: ("i",ni); ("j",nj); ("k",nk); ("l",nl)]%string.
apply: tab_ext => x /inb2P[xk [xl [-> _ _]]] /=.
rewrite sumrE; apply: eq_bigr => xi _.
rewrite sumrE; apply: eq_bigr => xj _.
by rewrite /= mulr1.
Qed.

Lemma es_ij_ikl_jkm A B C ni nj nk nl nm :
  nshape A = [:: ni; nj] -> nshape B = [:: ni; nk; nl] -> nshape C = [:: nj; nk; nm] ->
  einsum "ij,ikl,jkm->lm" [:: A; B; C] =
  Ok (tab2 nl nm (fun xl xm =>
    \sum_(0 <= xi < ni) \sum_(0 <= xj < nj) \sum_(0 <= xk < nk) get A [:: xi; xj] * (get B [:: xi; xk; xl] * get C [:: xj; xk; xm]))).
Proof.
move=> HA HB HC.
einsum_tac [:: ("i",ni); ("j",nj); ("k",nk); ("l",nl); ("m",nm)]%string.
apply: tab_ext => x /inb2P[xl [xm [-> _ _]]] /=.
rewrite sumrE; apply: eq_bigr => xi _.
rewrite sumrE; apply: eq_bigr => xj _.
rewrite sumrE; apply: eq_bigr => xk _.
by rewrite /= mulr1.
Qed.

Lemma es_ij_lik A B ni nj nl nk :
  nshape A = [:: ni; nj] -> nshape B = [:: nl; ni; nk] ->
  einsum "ij,lik->jk" [:: A; B] =
  Ok (tab2 nj nk (fun xj xk =>
    \sum_(0 <= xi < ni) \sum_(0 <= xl < nl) get A [:: xi; xj] * get B [:: xl; xi; xk])).
Proof.
move=> HA HB.
einsum_tac [:: ("i",ni); ("j",nj); ("l",nl); ("k",nk)]%string.
apply: tab_ext => x /inb2P[xj [xk [-> _ _]]] /=.
rewrite sumrE; apply: eq_bigr => xi _.
rewrite sumrE; apply: eq_bigr => xl _.
by rewrite /= mulr1.
Qed.

Lemma es_ij_ki_jkl A B C ni nj nk nl :
  nshape A = [:: ni; nj] -> nshape B = [:: nk; ni] -> nshape C = [:: nj; nk; nl] ->
  einsum "ij,ki,jkl->il" [:: A; B; C] =
  Ok (tab2 ni nl (fun xi xl =>
    \sum_(0 <= xj < nj) \sum_(0 <= xk < nk) get A [:: xi; xj] * (get B [:: xk; xi] * get C [:: xj; xk; xl]))).
Proof.
move=> HA HB HC.
einsum_tac [:: ("i",ni); ("j",nj); ("k",nk); ("l",nl)]%string.
apply: tab_ext => x /inb2P[xi [xl [-> _ _]]] /=.
rewrite sumrE; apply: eq_bigr => xj _.
rewrite sumrE; apply: eq_bigr => xk _.
by rewrite /= mulr1.
Qed.

Lemma es_jkl_km A B nj nk nl nm :
  nshape A = [:: nj; nk; nl] -> nshape B = [:: nk; nm] ->
  einsum "jkl,km->jml" [:: A; B] =
  Ok (tab3 nj nm nl (fun xj xm xl =>
    \sum_(0 <= xk < nk) get A [:: xj; xk; xl] * get B [:: xk; xm])).
Proof.
move=> HA HB.
einsum_tac [:: ("j",nj); ("k",nk); ("l",nl); ("m",nm)]%string.
apply: tab_ext => x /inb3P[xj [xm [xl [-> _ _ _]]]] /=.
rewrite sumrE; apply: eq_bigr => xk _.
by rewrite /= mulr1.
Qed.

Lemma es_ij_jml A B ni nj nm nl :
  nshape A = [:: ni; nj] -> nshape B = [:: nj; nm; nl] ->
  einsum "ij,jml->iml" [:: A; B] =
  Ok (tab3 ni nm nl (fun xi xm xl =>
    \sum_(0 <= xj < nj) get A [:: xi; xj] * get B [:: xj; xm; xl])).
Proof.
move=> HA HB.
einsum_tac [:: ("i",ni); ("j",nj); ("m",nm); ("l",nl)]%string.
apply: tab_ext => x /inb3P[xi [xm [xl [-> _ _ _]]]] /=.
rewrite sumrE; apply: eq_bigr => xj _.
by rewrite /= mulr1.
Qed.

Lemma es_Ej_jkl A B nE nj nk nl :
  nshape A = [:: nE; nj] -> nshape B = [:: nj; nk; nl] ->
  einsum "Ej,jkl->Ekl" [:: A; B] =
  Ok (tab3 nE nk nl (fun xE xk xl =>
    \sum_(0 <= xj < nj) get A [:: xE; xj] * get B [:: xj; xk; xl])).
Proof.
move=> HA HB.
einsum_tac [:: ("E",nE); ("j",nj); ("k",nk); ("l",nl)]%string.
apply: tab_ext => x /inb3P[xE [xk [xl [-> _ _ _]]]] /=.
rewrite sumrE; apply: eq_bigr => xj _.
by rewrite /= mulr1.
Qed.

Lemma es_Ej_ij A B nE nj ni :
  nshape A = [:: nE; nj] -> nshape B = [:: ni; nj] ->
  einsum "Ej,ij->Eij" [:: A; B] =
  Ok (tab3 nE ni nj (fun xE xi xj =>
     get A [:: xE; xj] * get B [:: xi; xj])).
Proof.
move=> HA HB.
einsum_tac [:: ("E",nE); ("j",nj); ("i",ni)]%string.
apply: tab_ext => x /inb3P[xE [xi [xj [-> _ _ _]]]] /=.
by rewrite /= mulr1.
Qed.

Lemma es_Ei_ijkl A B nE ni nj nk nl :
  nshape A = [:: nE; ni] -> nshape B = [:: ni; nj; nk; nl] ->
  einsum "Ei,ijkl->Ejkl" [:: A; B] =
  Ok (tab4 nE nj nk nl (fun xE xj xk xl =>
    \sum_(0 <= xi < ni) get A [:: xE; xi] * get B [:: xi; xj; xk; xl])).
Proof.
move=> HA HB.
einsum_tac [:: ("E",nE); ("i",ni); ("j",nj); ("k",nk); ("l",nl)]%string.
apply: tab_ext => x /inb4P[xE [xj [xk [xl [-> _ _ _ _]]]]] /=.
rewrite sumrE; apply: eq_bigr => xi _.
by rewrite /= mulr1.
Qed.

End Patterns.
