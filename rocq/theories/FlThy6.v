(* Proofs for property C68, part 6: perturbed tensors, scalar multiples. *)
From Coq Require Import String Ascii.
From mathcomp Require Import all_ssreflect all_algebra.
From mathcomp Require Import zify.
From Verif Require Import Py Nd NdThy Ein Utils Tensor Spec ChainThy TensorThy TensorThy2 FlModel FlSpec FlThy1 FlThy2 FlThy3.
Set Implicit Arguments. Unset Strict Implicit. Unset Printing Implicit Defensive.
Import GRing.Theory Num.Theory Order.TTheory.
Local Open Scope ring_scope.

Section Pert.
Variable R : realDomainType.
Variable u : R.
Hypothesis u0 : 0 <= u.
Notation arr := (nd R).
Notation tensor := (tensor R).
Notation apx := (apx u).
Notation near := (near u).
Notation nears := (nears u).
Notation perturbed := (perturbed u).
Implicit Types (X Y : tensor) (cs : seq arr).

Lemma apx_sum (I : Type) (r : seq I) (P : pred I) n (m x y : I -> R) :
  (forall j, P j -> apx n (m j) (x j) (y j)) -> apx n (\sum_(j <- r | P j) m j) (\sum_(j <- r | P j) x j) (\sum_(j <- r | P j) y j).
Proof.
move=> h; elim: r => [|j r IH]; last first.
  by rewrite !big_cons; case hP: (P j) => //; apply: apx_add => //; exact: h.
by rewrite !big_nil; apply: apx_mono (apx_exact u _) => //; rewrite normr0.
Qed.
Lemma apx_sum_nat k n (m x y : nat -> R) : (forall j, (j < k)%N -> apx n (m j) (x j) (y j)) ->
  apx n (\sum_(0 <= j < k) m j) (\sum_(0 <= j < k) x j) (\sum_(0 <= j < k) y j).
Proof.
move=> h; rewrite !big_nat; apply: apx_sum => j /= hj; exact: h.
Qed.
Lemma apx_sum_idx s n (m x y : seq nat -> R) : (forall i, inb s i -> apx n (m i) (x i) (y i)) ->
  apx n (sum_idx s m) (sum_idx s x) (sum_idx s y).
Proof.
elim: s m x y => [|k s IH] m x y h /=; first exact: h.
apply: apx_sum_nat => j hj; apply: IH => i hi; apply: h; by rewrite /= hj.
Qed.

Lemma near_get k a a' i : near k a a' -> apx k (get (nabs a) i) (get a i) (get a' i).
Proof. by case=> es _ h; split; [rewrite get_nabs|rewrite get_nabs /get es; exact: h]. Qed.
Lemma near_dim k a a' j : near k a a' -> dim a' j = dim a j.
Proof. by case=> es _ _; rewrite /dim es. Qed.
Lemma near_nwf k a a' : near k a a' -> nwf a' = nwf a.
Proof. by case=> es sz _; rewrite /nwf es sz. Qed.

Lemma nears_dim ks cs cs' j : nears ks cs cs' -> [seq dim C j | C <- cs'] = [seq dim C j | C <- cs].
Proof.
elim: ks cs cs' => [|k ks IH] [|C cs] [|C' cs'] //= [h hs].
by rewrite (near_dim _ h) (IH _ _ hs).
Qed.
Lemma nears_size ks cs cs' : nears ks cs cs' -> size cs' = size cs.
Proof. by move=> h; have := congr1 size (nears_dim 0 h); rewrite !size_map. Qed.
Lemma nears_links ks cs cs' a b : nears ks cs cs' -> links a cs' b = links a cs b.
Proof.
elim: ks cs cs' a => [|k ks IH] [|C cs] [|C' cs'] //= a [h hs].
by rewrite (near_nwf h) !(near_dim _ h) (IH _ _ _ hs); case: h => ->.
Qed.
Lemma nears_all ks cs cs' (P : arr -> bool) : (forall k C C', near k C C' -> P C' = P C) ->
  nears ks cs cs' -> all P cs' = all P cs.
Proof.
move=> hP; elim: ks cs cs' => [|k ks IH] [|C cs] [|C' cs'] //= [h hs].
by rewrite (hP _ _ _ h) (IH _ _ hs).
Qed.

Lemma nears_chain ks cs cs' i a b : nears ks cs cs' ->
  apx (sumn ks) (chain (map (@nabs R) cs) i a b) (chain cs i a b) (chain cs' i a b).
Proof.
elim: ks cs cs' i a => [|k ks IH] [|C cs] [|C' cs'] //= [|x i] a; first 1 last.
- by move=> _; apply: apx_exact; case: eqP; rewrite ?normr1 ?normr0.
- by move=> _; apply: apx_mono (apx_exact u _) => //; case: eqP; rewrite ?normr1 ?normr0.
- by case=> h hs; rewrite (near_dim _ h); apply: apx_sum_nat => l hl; apply: apx_mul => //; [exact: near_get|exact: IH].
by move=> _; apply: apx_exact; case: eqP; rewrite ?normr1 ?normr0.
Qed.

Lemma nears_cp ks cs cs' i r : nears ks cs cs' -> apx (sumn ks) (cpp (map (@nabs R) cs) i r) (cpp cs i r) (cpp cs' i r).
Proof.
elim: ks cs cs' i => [|k ks IH] [|C cs] [|C' cs'] //= [|x i]; rewrite /cpp /= ?big_nil;
  try by move=> _; apply: apx_mono (apx_exact u _) => //; rewrite normr1.
by case=> h hs; rewrite !big_cons /=; apply: apx_mul => //; [exact: near_get|exact: IH].
Qed.
Lemma nears_tucker ks cs cs' j i : nears ks cs cs' -> apx (sumn ks) (fpr (map (@nabs R) cs) j i) (fpr cs j i) (fpr cs' j i).
Proof.
elim: ks cs cs' i j => [|k ks IH] [|C cs] [|C' cs'] //= [|x i] [|y j]; rewrite /fpr /= ?big_nil;
  try by move=> _; apply: apx_mono (apx_exact u _) => //; rewrite normr1.
by case=> h hs; rewrite !big_cons /=; apply: apx_mul => //; [exact: near_get|exact: IH].
Qed.

Fixpoint near_list n (l l' : seq tensor) : Prop :=
  match l, l' with
  | [::], [::] => True
  | x :: l, x' :: l' => perturbed n x x' /\ near_list n l l'
  | _, _ => False
  end.
Lemma perturbed_sum n s Xs s' Xs' : perturbed n (TSum s Xs) (TSum s' Xs') <-> s' = s /\ near_list n Xs Xs'.
Proof.
rewrite /=; split=> -[-> h]; split=> //; move: h;
  by elim: Xs Xs' => [|x Xs IH] [|x' Xs'] //= [h /IH h'].
Qed.

Lemma perturbedP nr n X X' : wf_gen nr X -> perturbed n X X' ->
  [/\ wf_gen nr X', tshape X' = tshape X, roundings X' = roundings X &
   forall i, inb (tshape X) i -> apx n (den (tabs X) i) (den X i) (den X' i)].
Proof.
elim/tensor_ind': X X' => [a|s inds v|cs|cs|fs c|s Xs IH] [a'|s' inds' v'|cs'|cs'|fs' c'|s' Xs'] //= w.
- move=> h; rewrite (near_nwf h) w; split=> //; first by case: h.
  by move=> i hi; exact: near_get.
- case=> -> -> h; have sz : size v' = size v by case: h.
  split=> //; first by rewrite sz.
  move=> i hi; rewrite size_map sz; apply: apx_sum_nat => k hk; rewrite -(add0n n); apply: apx_mul => //.
    by apply: apx_exact; case: eqP; rewrite ?normr1 ?normr0.
  rewrite (nth_map 0) //; case: h => _ _ /(_ k) h; split=> //.
- case=> ks hn h; rewrite /wf_tt /nilp (nears_size h) (nears_links _ _ h) -/(wf_tt cs) w (nears_dim 1 h); split=> //.
    by rewrite -!behead_map (nears_dim 0 h).
  by move=> i hi; apply: apx_mono hn _ => //; exact: nears_chain.
- case=> ks hn h.
  have hd : dim (head (Nd [::] [::]) cs') 1 = dim (head (Nd [::] [::]) cs) 1.
    by case: (ks) (cs) (cs') h => [|k ks'] [|C l] [|C' l'] //= [h _]; exact: near_dim h.
  have hh : dim (head (Nd [::] [::]) (map (@nabs R) cs)) 1 = dim (head (Nd [::] [::]) cs) 1 by case: (cs).
  rewrite /wf_cp /nilp (nears_size h) hd (nears_dim 0 h).
  rewrite (nears_all _ h); last first.
    by move=> k C C' hC; rewrite (near_nwf hC) (near_dim _ hC); case: hC => ->.
  split=> // i hi; rewrite hh; apply: apx_sum_nat => r hr; apply: apx_mono hn _ => //; exact: nears_cp.
- case=> k [ks [hn h hc]]; move: w; rewrite /wf_tucker (near_nwf hc) (nears_dim 0 h) (nears_dim 1 h).
  rewrite (nears_all _ h); last first.
    by move=> k' C C' hC; rewrite (near_nwf hC) !(near_dim _ hC); case: hC => ->.
  case: (hc) => es _ _; rewrite es => w; split=> // i hi.
  apply: apx_sum_idx => j hj; apply: apx_mono hn _ => //; apply: apx_mul => //; first exact: near_get.
  exact: nears_tucker.
rewrite -/(perturbed n (TSum s Xs) (TSum s' Xs')) perturbed_sum => -[-> hl].
have w' : ~~ nilp Xs /\ all (fun x => wf_gen nr x && (tshape x == s)) Xs by move: w; rewrite -/(wf_gen nr (TSum s Xs)) wf_sumE => /andP.
case: w' => hn' w'.
suff [h1 h2 h3 h4] : [/\ size Xs' = size Xs, all (fun x => wf_gen nr x && (tshape x == s)) Xs',
   map (@roundings R) Xs' = map (@roundings R) Xs & forall i, inb s i ->
    apx n (\sum_(x <- Xs) den (tabs x) i) (\sum_(x <- Xs) den x i) (\sum_(x <- Xs') den x i)].
  split=> //; last 1 first.
  - move=> i hi; rewrite -[X in apx _ X _ _]/(den (TSum s (map (@tabs R) Xs)) i) -[X in apx _ _ X _]/(den (TSum s Xs) i)
      -[X in apx _ _ _ X]/(den (TSum s Xs') i) !den_sum big_map; exact: h4.
  - by rewrite -/(wf_gen nr (TSum s Xs')) wf_sumE h2 /nilp h1 -/(nilp Xs) hn'.
  by rewrite h3 h1.
elim: Xs Xs' IH w' hl {w hn'} => [|x Xs IHl] [|x' Xs'] IH //=.
  move=> _ _; split=> // i hi; rewrite !big_nil; apply: apx_mono (apx_exact u _) => //; by rewrite normr0.
case/andP=> /andP[wx /eqP sx] ws [hx hl].
have [|wx' sx' rx' dx'] := IH x _ x' wx hx; first by left.
have [|h1 h2 h3 h4] := IHl Xs' _ ws hl; first by move=> y hy; apply: IH; right.
split; rewrite ?h1 ?wx' ?sx' ?sx ?eqxx ?h2 ?rx' ?h3 // => i hi.
rewrite !big_cons; apply: apx_add; last exact: h4.
by apply: dx'; rewrite sx.
Qed.

(* absolute values *)
Lemma nabs_idem (a : arr) : nabs (nabs a) = nabs a.
Proof. by rewrite /nabs /= -map_comp; congr Nd; apply: eq_map => x /=; rewrite normr_id. Qed.
Lemma near_nabs k (a : arr) a' : near k a a' -> near k (nabs a) (nabs a').
Proof.
case=> es sz h; split=> //=; rewrite ?size_map // => j.
case: (ltnP j (size (ndata a))) => hj; last by rewrite !nth_default ?size_map ?sz // subrr normr0 mulr0.
rewrite !(nth_map 0) ?sz // normr_id; apply: le_trans (h j).
exact: ler_dist_dist.
Qed.
Lemma nears_nabs ks cs cs' : nears ks cs cs' -> nears ks (map (@nabs R) cs) (map (@nabs R) cs').
Proof. by elim: ks cs cs' => [|k ks IH] [|C cs] [|C' cs'] //= [h hs]; split; [exact: near_nabs|exact: IH]. Qed.
Lemma perturbed_tabs n X X' : perturbed n X X' -> perturbed n (tabs X) (tabs X').
Proof.
elim/tensor_ind': X X' => [a|s inds v|cs|cs|fs c|s Xs IH] [a'|s' inds' v'|cs'|cs'|fs' c'|s' Xs'] //.
- exact: near_nabs.
- by case=> h1 h2 h3; split=> //; have := near_nabs h3; rewrite /nabs /= !size_map.
- by case=> ks h1 h2; exists ks => //; exact: nears_nabs.
- by case=> ks h1 h2; exists ks => //; exact: nears_nabs.
- by case=> k [ks [h1 h2 h3]]; exists k, ks; split=> //; [exact: nears_nabs|exact: near_nabs].
rewrite perturbed_sum !tabs_sum perturbed_sum => -[-> h]; split=> //.
elim: Xs Xs' IH h => [|x Xs IHl] [|x' Xs'] IH //= [h hs]; split; first by apply: IH => //; left.
by apply: IHl => // y hy; apply: IH; right.
Qed.
Lemma links_nabs' a cs b : links a (map (@nabs R) cs) b = links a cs b. Proof. exact: links_nabs. Qed.
Lemma tabsP nr X : [/\ wf_gen nr (tabs X) = wf_gen nr X, tshape (tabs X) = tshape X, tabs (tabs X) = tabs X &
  roundings (tabs X) = roundings X].
Proof.
elim/tensor_ind': X => [a|s inds v|cs|cs|fs c|s Xs IH].
- by split=> //=; rewrite ?nwf_nabs ?nabs_idem.
- by split=> //=; rewrite ?size_map // -map_comp; congr Sparse; apply: eq_map => x /=; rewrite normr_id.
- split=> //=; rewrite ?map_nabs_dim //.
  + by rewrite /wf_tt links_nabs /nilp size_map.
  + by rewrite -map_comp; congr TT; apply: eq_map => C /=; rewrite nabs_idem.
  by rewrite -!behead_map map_nabs_dim.
- split=> //=; rewrite ?map_nabs_dim //.
  + rewrite /wf_cp /nilp size_map all_map; congr (_ && _); apply: eq_all => C /=; rewrite nwf_nabs; congr (_ && (_ == [:: _; _])).
    by case: (cs).
  + by rewrite -map_comp; congr CP; apply: eq_map => C /=; rewrite nabs_idem.
  by rewrite size_map; case: (cs).
- split=> //=; rewrite ?map_nabs_dim //.
  + by rewrite /wf_tucker nwf_nabs map_nabs_dim all_map /=; congr [&& _, _ & _]; apply: eq_all => C /=; rewrite nwf_nabs.
  by rewrite nabs_idem -map_comp; congr Tucker; apply: eq_map => C /=; rewrite nabs_idem.
have e1 : all (fun x => wf_gen nr x && (tshape x == s)) (map (@tabs R) Xs) = all (fun x => wf_gen nr x && (tshape x == s)) Xs.
  elim: Xs IH => [|x Xs IHl] IH //=; have [|-> -> _ _] := IH x; first by left.
  by rewrite IHl // => y hy; apply: IH; right.
have e2 : map (@tabs R) (map (@tabs R) Xs) = map (@tabs R) Xs.
  elim: Xs IH {e1} => [|x Xs IHl] IH //=; have [|_ _ -> _] := IH x; first by left.
  by rewrite IHl // => y hy; apply: IH; right.
have e3 : map (@roundings R) (map (@tabs R) Xs) = map (@roundings R) Xs.
  elim: Xs IH {e1 e2} => [|x Xs IHl] IH //=; have [|_ _ _ ->] := IH x; first by left.
  by rewrite IHl // => y hy; apply: IH; right.
split=> //; rewrite ?tabs_sum ?e2 //.
  by rewrite !wf_sumE e1 /nilp size_map.
by rewrite /= e3 size_map.
Qed.

(* scalar multiples *)
Lemma nabs_nscale c (a : arr) : nabs (nscale c a) = nscale `|c| (nabs a).
Proof.
rewrite /nabs /nscale /tab /= -map_comp; congr Nd; apply: eq_map => p /=.
by rewrite get_nabs normrM.
Qed.
Lemma tmul_tabs X Z c : tmul X c = Ok Z -> tmul (tabs X) `|c| = Ok (tabs Z) /\ roundings Z = roundings X.
Proof.
elim/tensor_ind': X Z => [a|s inds v|cs|cs|fs co|s Xs IH] Z.
- by case=> <-; rewrite /= nabs_nscale.
- case=> <- /=; split=> //; congr (Ok (Sparse _ _ _)); rewrite -!map_comp; apply: eq_map => x /=; by rewrite normrM.
- rewrite /=; case/lastP: cs => [|cs C] //; rewrite map_rcons !rev_rcons => -[<-] /=.
  rewrite !rev_cons !revK map_rcons nabs_nscale; split=> //.
  by case: cs => //= C0 cs; rewrite !map_rcons.
- case: cs => [|C cs] //= [<-] /=; rewrite nabs_nscale.
  by split.
- by case=> <- /=; rewrite nabs_nscale.
rewrite tabs_sum !tmul_sum; case e: (mapM _ Xs) => [Ys|] //=.
suff [h1 h2] : mapM (fun x => tmul x `|c|) (map (@tabs R) Xs) = Ok (map (@tabs R) Ys) /\ map (@roundings R) Ys = map (@roundings R) Xs.
  rewrite h1 /=; case: Ys h1 h2 {e} => [|y Ys] // _ h2 [<-]; rewrite tabs_sum /=.
  have [_ -> _ _] := tabsP true y; split=> //; rewrite -h2 /=.
  by have := congr1 size h2; rewrite /= !size_map => <-.
elim: Xs Ys IH e => [|x Xs IHl] Ys IH /=; first by case=> <-.
case ex: (tmul x c) => [y|] //=; case eXs: (mapM _ Xs) => [ys|] //= [<-].
have [|h1 h2] := IH x _ y ex; first by left.
have [||h3 h4] := IHl ys => //; first by move=> z hz; apply: IH; right.
by rewrite h1 /= h3 /= h2 h4.
Qed.
End Pert.
