(* The streaming sketch of a sum is the sum of the sketches, for every mixture of formats: a
   statement about the code paths only, which does not use the meaning of the sketches. *)
From Coq Require Import String Ascii NArith.
From mathcomp Require Import all_ssreflect all_algebra.
From mathcomp Require Import zify.
From Verif Require Import Py Nd NdThy Ein Utils Tensor Hash Sketch Spec ChainThy TensorThy TensorThy2 TrimThy RoundThy SkSpec SkThy1 SkThy4 SkThy5 SkThy6 SkThy7 SkThy8 SkThy9 SkThy10 SkThy11 SkThy12.
Set Implicit Arguments. Unset Strict Implicit. Unset Printing Implicit Defensive.
Import GRing.Theory.
Local Open Scope ring_scope.

Section Sum.
Variable R : comRingType.
Variable to_normal : N -> R.
Variable lstsq : nd R -> nd R -> res (nd R).
Variable qr_econ : nd R -> res (nd R * nd R).
Notation arr := (nd R).
Notation tensor := (tensor R).
Notation drm := (drm R).
Notation skt := (skt R).
Notation container := (container R).
Notation C0 := (C0 R).
Notation L0 := (Leaf (Nd [::] [::])).
Implicit Types (X Y : tensor) (n mu : nat) (D E : drm) (lc rc : seq skt).
Notation gs := (general_sketch to_normal lstsq qr_econ).
Notation sketch_all := (sketch_all to_normal).
Notation sketch_upto := (sketch_upto to_normal).

Lemma pyget_inv (A : Type) (x0 : A) (l : seq A) k x : pyget l k = Ok x -> (k < size l)%N /\ x = nth x0 l k.
Proof.
move=> h; have hk : (k < size l)%N by rewrite ltnNge; apply/negP => hk; move: h; rewrite /pyget drop_oversize.
by move: h; rewrite (pygetE x0 hk) => -[<-].
Qed.

Lemma mapM_inv (A B : Type) (a0 : A) (b0 : B) (f : A -> res B) l m : mapM f l = Ok m ->
  size m = size l /\ forall k, (k < size l)%N -> f (nth a0 l k) = Ok (nth b0 m k).
Proof.
elim: l m => [|x l IH] m /=; first by move=> [<-].
case ex: (f x) => [y|] //=; case el: (mapM f l) => [ys|] //= [<-] /=.
by have [h1 h2] := IH _ el; split; [rewrite h1|case].
Qed.

Definition larg lc mu : option skt := if mu is m.+1 then Some (nth L0 lc m) else None.
(* what a successful streaming run computed *)
Definition run X D E lc rc (s : container) : Prop :=
  let d := size (tshape X) in
  [/\ sketch_all D X = Ok lc /\ sketch_all E X = Ok rc, (d.-1 <= size lc)%N /\ (d.-1 <= size rc)%N,
     size (Psi_cores s) = d /\ size (Omega_mats s) = d.-1,
     (forall mu, (mu < d.-1)%N -> omega X mu (sh2 D E mu) (nth L0 lc mu) (nth L0 rc mu) = Ok (nth C0 (Omega_mats s) mu)) &
     (forall mu, (mu < d)%N -> psi X mu (sh3 D E (tshape X) mu) (larg lc mu) (rarg rc d mu) = Ok (nth C0 (Psi_cores s) mu))].

Section One.
Variables (X : tensor) (D E : drm).
Let d := size (tshape X).
Hypothesis sD : size (d_rank D) = d.-1.
Hypothesis sE : size (d_rank E) = d.-1.

Lemma psi_stepE lc rc Os Ps mu : (d.-1 <= size lc)%N -> (d.-1 <= size rc)%N -> (mu < d)%N ->
  psi_step to_normal lstsq qr_econ X Streaming (d_rank D) (d_rank E) lc rc Os Ps mu =
  do P <- psi X mu (sh3 D E (tshape X) mu) (larg lc mu) (rarg rc d mu); Ok (rcons Ps P).
Proof.
move=> hl hr hm; rewrite /psi_step -/d.
have -> : (if (0 < mu)%N then do l <- pyget lc mu.-1; do r1 <- pyget (d_rank D) mu.-1; Ok (Some l, r1)
   else Ok (None, 1%N)) = Ok (larg lc mu, at_left (nth 0%N (d_rank D)) 1%N mu).
  case: mu hm => [|mu] hm //=; rewrite (pygetE L0) /=; last by clear -hm hl; lia.
  by rewrite (pygetE 0%N) //= sD; clear -hm; lia.
rewrite [bind (Ok _) _]/=.
have -> : (if (mu < d.-1)%N then do r <- pyget rc mu; do r2 <- pyget (rev (d_rank E)) mu; Ok (Some r, r2)
   else Ok (None, 1%N)) = Ok (rarg rc d mu, at_right (nth 0%N (rev (d_rank E))) 1%N d mu).
  rewrite /rarg /at_right; case: ltnP => h //.
  by rewrite (pygetE L0) /= ?(leq_trans h) // (pygetE 0%N) ?size_rev ?sE.
rewrite [bind (Ok _) _]/= /sh3 -/d; case: (psi _ _ _ _ _) => //= P.
by case: ifP.
Qed.

Lemma foldM_psi lc rc Os : (d.-1 <= size lc)%N -> (d.-1 <= size rc)%N -> forall Ps,
  foldM (psi_step to_normal lstsq qr_econ X Streaming (d_rank D) (d_rank E) lc rc Os) [::] (iota 0 d) = Ok Ps <->
  (size Ps = d /\ forall mu, (mu < d)%N -> psi X mu (sh3 D E (tshape X) mu) (larg lc mu) (rarg rc d mu) = Ok (nth C0 Ps mu)).
Proof.
move=> hl hr.
suff H n : (n <= d)%N -> forall Ps,
  foldM (psi_step to_normal lstsq qr_econ X Streaming (d_rank D) (d_rank E) lc rc Os) [::] (iota 0 n) = Ok Ps <->
  (size Ps = n /\ forall mu, (mu < n)%N -> psi X mu (sh3 D E (tshape X) mu) (larg lc mu) (rarg rc d mu) = Ok (nth C0 Ps mu)).
  by apply: H.
elim: n => [|n IH] hn Ps.
  by split=> [[<-]|[/size0nil -> _]].
rewrite iotaSr foldM_rcons; have {}IH := IH (ltnW hn); split.
  case ef: (foldM _ _ _) => [Qs|] //=; move/IH: ef => [sQ hQ].
  rewrite psi_stepE //; case ep: (psi _ _ _ _ _) => [P|] //= [<-].
  rewrite size_rcons sQ; split=> // mu; rewrite ltnS leq_eqVlt nth_rcons sQ => /orP[/eqP->|hm].
    by rewrite ltnn eqxx.
  by rewrite hm; apply: hQ.
case/lastP: Ps => [|Qs P]; first by case.
rewrite size_rcons => -[[sQ] h].
have -> : foldM (psi_step to_normal lstsq qr_econ X Streaming (d_rank D) (d_rank E) lc rc Os) [::] (iota 0 n) = Ok Qs.
  by apply/IH; split=> // mu hm; rewrite h ?ltnS 1?ltnW // nth_rcons sQ hm.
by rewrite /= psi_stepE // h // nth_rcons sQ ltnn eqxx.
Qed.

Lemma omegas_mapM lc rc : (d.-1 <= size lc)%N -> (d.-1 <= size rc)%N -> forall Os,
  mapM (fun mu => do l <- pyget lc mu; do r <- pyget rc mu;
     do r1 <- pyget (d_rank D) mu; do r2 <- pyget (rev (d_rank E)) mu; omega X mu [:: r1; r2] l r) (iota 0 d.-1) = Ok Os <->
  (size Os = d.-1 /\ forall mu, (mu < d.-1)%N -> omega X mu (sh2 D E mu) (nth L0 lc mu) (nth L0 rc mu) = Ok (nth C0 Os mu)).
Proof.
move=> hl hr Os; split.
  move/(mapM_inv 0%N C0); rewrite size_iota => -[sO h]; split=> // mu hm; have := h mu hm; rewrite nth_iota // add0n.
  by rewrite (pygetE L0) /= ?(leq_trans hm) // (pygetE L0) /= ?(leq_trans hm) // (pygetE 0%N) ?sD //= (pygetE 0%N) ?size_rev ?sE.
case=> sO h.
have [mu hm|Os' -> [sO' h']] := @mapM_iotaE R (fun mu => do l <- pyget lc mu; do r <- pyget rc mu;
     do r1 <- pyget (d_rank D) mu; do r2 <- pyget (rev (d_rank E)) mu; omega X mu [:: r1; r2] l r) d.-1 (fun mu A => A = nth C0 Os mu).
  rewrite (pygetE L0) /= ?(leq_trans hm) // (pygetE L0) /= ?(leq_trans hm) // (pygetE 0%N) ?sD //= (pygetE 0%N) ?size_rev ?sE //=.
  by rewrite h //; eexists.
by congr Ok; apply: (@eq_from_nth _ C0); rewrite sO' ?sO.
Qed.

Lemma gs_run s : gs X (Some D) E Streaming = Ok s <-> (s = mk_container (Psi_cores s) (Omega_mats s) /\ exists lc rc, run X D E lc rc s).
Proof.
split.
  move=> h; split; first exact: (gs_mk h).
  move: h; rewrite /general_sketch.
  case el : (sketch_all D X) => [lc|] //=; case er : (sketch_all E X) => [rc|] //=; rewrite -/d.
  case eo : (mapM _ _) => [Os|] //=; case ep : (foldM _ _ _) => [Ps|] //= [<-].
  have [hl hr] : (d.-1 <= size lc)%N /\ (d.-1 <= size rc)%N.
    have [sO h] := mapM_inv 0%N C0 eo.
    have [d0|d0] := posnP d.-1; first by rewrite d0.
    have := h d.-2; rewrite size_iota nth_iota prednK // add0n => /(_ (leqnn _)).
    case e1 : (pyget lc _) => [l|] //=; case e2 : (pyget rc _) => [r|] //= _.
    by have [+ _] := pyget_inv l e1; have [+ _] := pyget_inv r e2; rewrite prednK.
  exists lc, rc; split=> //=; rewrite -/d.
  - by move/(omegas_mapM hl hr): eo => [-> _]; move/(foldM_psi Os hl hr): ep => [-> _].
  - by move/(omegas_mapM hl hr): eo => [_].
  - by move/(foldM_psi Os hl hr): ep => [_].
case=> es [lc [rc [[el er] [hl hr] [sP sO] hO hP]]].
rewrite /general_sketch el /= er /= -/d.
have -> : mapM (fun mu => do l <- pyget lc mu; do r <- pyget rc mu;
     do r1 <- pyget (d_rank D) mu; do r2 <- pyget (rev (d_rank E)) mu; omega X mu [:: r1; r2] l r) (iota 0 d.-1) = Ok (Omega_mats s).
  by apply/(omegas_mapM hl hr).
rewrite [bind (Ok _) _]/=.
have -> : foldM (psi_step to_normal lstsq qr_econ X Streaming (d_rank D) (d_rank E) lc rc (Omega_mats s)) [::] (iota 0 d) = Ok (Psi_cores s).
  by apply/(foldM_psi _ hl hr).
by rewrite /= -es.
Qed.
End One.

(* ---- sums ---- *)
Fixpoint sgo (A : Type) (f : tensor -> A -> A -> res arr) (acc : arr) (xs : seq tensor) (ls rs : seq A) {struct xs} : res arr :=
  match xs, ls, rs with
  | x :: xs', l :: ls', r :: rs' => do w <- f x l r; do acc' <- iadd acc w; sgo f acc' xs' ls' rs'
  | _, _, _ => Ok acc
  end.
Lemma omega_sgo s Xs mu sh ls rs : omega (TSum s Xs) mu sh (Node ls) (Node rs) =
  sgo (fun x => omega x mu sh) (zeros R sh) Xs ls rs.
Proof.
rewrite /=; move: (zeros R sh) => acc; elim: Xs acc ls rs => [|x Xs IH] acc [|l ls] [|r rs] //=.
by case: (omega _ _ _ _ _) => //= w; case: (iadd _ _) => //=.
Qed.
Lemma psi_sgo s Xs mu sh L Rt : (if L is Some (Leaf _) then false else true) -> (if Rt is Some (Leaf _) then false else true) ->
  psi (TSum s Xs) mu sh L Rt = sgo (fun x => psi x mu sh) (zeros R sh) Xs (spreado (size Xs) L) (spreado (size Xs) Rt).
Proof.
move=> hL hR.
have -> : psi (TSum s Xs) mu sh L Rt = (fix go acc xs ls rs := match xs, ls, rs with
        | x :: xs', l :: ls', r :: rs' =>
            do w <- psi x mu sh l r; do acc' <- iadd acc w; go acc' xs' ls' rs'
        | _, _, _ => Ok acc end) (zeros R sh) Xs (spreado (size Xs) L) (spreado (size Xs) Rt).
  by case: L hL => [[?|?]|] //= _; case: Rt hR => [[?|?]|].
move: (zeros R sh) (spreado _ L) (spreado _ Rt) => acc ls rs.
elim: Xs acc ls rs => [|x Xs IH] acc [|l ls] [|r rs] //=.
by case: (psi _ _ _ _ _) => //= w; case: (iadd _ _) => //=.
Qed.

Lemma sgoE (A : Type) (a0 : A) (f : tensor -> A -> A -> res arr) Xs ls rs (Ws : seq arr) sh (x0 : tensor) acc :
  size ls = size Xs -> size rs = size Xs -> size Ws = size Xs ->
  (forall k, (k < size Xs)%N -> f (nth x0 Xs k) (nth a0 ls k) (nth a0 rs k) = Ok (nth C0 Ws k)) ->
  (forall W, List.In W Ws -> nshape W = sh) -> nshape acc = sh ->
  exists2 V, sgo f acc Xs ls rs = Ok V & [/\ nshape V = sh, nwf acc -> nwf V &
    forall i, inb sh i -> get V i = get acc i + \sum_(W <- Ws) get W i].
Proof.
elim: Xs ls rs Ws acc => [|x Xs IH] [|l ls] [|r rs] [|W Ws] //= acc.
  by move=> _ _ _ _ _ ea; exists acc => //; split=> // i hi; rewrite big_nil addr0.
move=> [sl] [sr] [sW] h hW ea; have /= -> := h 0%N isT; rewrite [bind (Ok _) _]/=.
have eW : nshape W = sh by apply: hW; left.
rewrite iaddE ?ea ?eW // [bind (Ok _) _]/=.
have [|||V -> [h1 h2 h3]] := IH ls rs Ws (tab sh (fun i => get acc i + get W i)) sl sr sW.
- by move=> k hk; apply: (h k.+1).
- by move=> V hV; apply: hW; right.
- by [].
exists V => //; split=> // [_|i hi]; first by apply: h2; apply: nwf_tab.
by rewrite h3 // get_tab // big_cons addrA.
Qed.

Lemma mapup_inv D n Xs (x0 : tensor) (Ls : seq (seq skt)) : size Ls = size Xs ->
  (forall k, (k < size Xs)%N -> sketch_upto D n (nth x0 Xs k) = Ok (nth [::] Ls k)) -> mapup to_normal D n Xs = Ok Ls.
Proof.
elim: Xs Ls => [|x Xs IH] [|L Ls] //= [sL] h; have /= -> := h 0%N isT; rewrite /= (IH Ls) // => k hk.
exact: (h k.+1).
Qed.

Lemma exists_list (B : Type) (b0 : B) (P : nat -> B -> Prop) n : (forall k, (k < n)%N -> exists b, P k b) ->
  exists l : seq B, size l = n /\ forall k, (k < n)%N -> P k (nth b0 l k).
Proof.
elim: n => [|n IH] H; first by exists [::].
have [k hk|l [sl hl]] := IH; first by apply: H; apply: ltnW.
have [b hb] := H n (leqnn _); exists (rcons l b); rewrite size_rcons sl; split=> // k.
by rewrite ltnS leq_eqVlt nth_rcons sl => /orP[/eqP->|hk]; [rewrite ltnn eqxx|rewrite hk; apply: hl].
Qed.

Lemma gs_sum s Xs D E (ss : seq container) : Xs <> [::] -> (forall x, List.In x Xs -> tshape x = s) ->
  size (d_rank D) = (size s).-1 -> size (d_rank E) = (size s).-1 ->
  mapM (fun x => gs x (Some D) E Streaming) Xs = Ok ss ->
  (forall c, List.In c ss -> shaped D E s c) ->
  exists2 c, gs (TSum s Xs) (Some D) E Streaming = Ok c & [/\ shaped D E s c,
    (forall mu i, (mu < (size s).-1)%N -> inb (sh2 D E mu) i ->
       get (nth C0 (Omega_mats c) mu) i = \sum_(t <- ss) get (nth C0 (Omega_mats t) mu) i) &
    (forall mu i, (mu < size s)%N -> inb (sh3 D E s mu) i ->
       get (nth C0 (Psi_cores c) mu) i = \sum_(t <- ss) get (nth C0 (Psi_cores t) mu) i)].
Proof.
move=> hX hs sD sE em hsh; set d := size s.
case: Xs hX hs em => // X0 Xs0 _; set Xs := X0 :: Xs0 => hs em.
pose c0 : container := Container [::] [::] [::] [::] [::].
have [sss hss] := mapM_inv X0 c0 em.
have hin k : (k < size Xs)%N -> List.In (nth X0 Xs k) Xs.
  by move: (Xs) => l; elim: l k => [|x l IH] [|k] //= hk; [left|right; apply: IH].
have hinc k : (k < size Xs)%N -> List.In (nth c0 ss k) ss.
  by rewrite -sss; move: (ss) => l; elim: l k => [|x l IH] [|k] //= hk; [left|right; apply: IH].
have tk k : (k < size Xs)%N -> tshape (nth X0 Xs k) = s by move=> hk; apply: hs; apply: hin.
have [LRs [sLR hLR]] : exists l : seq (seq skt * seq skt), size l = size Xs /\ forall k, (k < size Xs)%N ->
    run (nth X0 Xs k) D E (nth ([::], [::]) l k).1 (nth ([::], [::]) l k).2 (nth c0 ss k).
  apply: (@exists_list _ ([::], [::]) (fun k p => run (nth X0 Xs k) D E p.1 p.2 (nth c0 ss k))) => k hk; have := hss k hk.
  have e1 : size (d_rank D) = (size (tshape (nth X0 Xs k))).-1 by rewrite tk.
  have e2 : size (d_rank E) = (size (tshape (nth X0 Xs k))).-1 by rewrite tk.
  by move/(gs_run e1 e2) => [_ [lc [rc h]]]; exists (lc, rc).
set Ls := map fst LRs; set Rs := map snd LRs.
have hL k : (k < size Xs)%N -> nth [::] Ls k = (nth ([::], [::]) LRs k).1 by move=> hk; rewrite (nth_map ([::], [::])) ?sLR.
have hR k : (k < size Xs)%N -> nth [::] Rs k = (nth ([::], [::]) LRs k).2 by move=> hk; rewrite (nth_map ([::], [::])) ?sLR.
have eL : mapup to_normal D d.-1 Xs = Ok Ls.
  apply: (@mapup_inv _ _ _ X0); first by rewrite size_map.
  by move=> k hk; have [[+ _] _ _ _ _] := hLR k hk; rewrite hL // /sketch_all tk.
have eR : mapup to_normal E d.-1 Xs = Ok Rs.
  apply: (@mapup_inv _ _ _ X0); first by rewrite size_map.
  by move=> k hk; have [[_ +] _ _ _ _] := hLR k hk; rewrite hR // /sketch_all tk.
have aL : all (fun L => d.-1 <= size L)%N Ls.
  apply/(all_nthP [::]) => k; rewrite size_map sLR => hk; rewrite hL //.
  by have [_ [+ _] _ _ _] := hLR k hk; rewrite tk.
have aR : all (fun L => d.-1 <= size L)%N Rs.
  apply/(all_nthP [::]) => k; rewrite size_map sLR => hk; rewrite hR //.
  by have [_ [_ +] _ _ _] := hLR k hk; rewrite tk.
pose lcS := [seq Node [seq nth L0 L mu | L <- Ls] | mu <- iota 0 d.-1].
pose rcS := [seq Node [seq nth L0 L mu | L <- Rs] | mu <- iota 0 d.-1].
have elS : sketch_all D (TSum s Xs) = Ok lcS by rewrite /sketch_all sketch_upto_sum eL /= aL.
have erS : sketch_all E (TSum s Xs) = Ok rcS by rewrite /sketch_all sketch_upto_sum eR /= aR.
have nl mu : (mu < d.-1)%N -> nth L0 lcS mu = Node [seq nth L0 L mu | L <- Ls].
  by move=> hm; rewrite (nth_map 0%N) ?size_iota // nth_iota.
have nr mu : (mu < d.-1)%N -> nth L0 rcS mu = Node [seq nth L0 L mu | L <- Rs].
  by move=> hm; rewrite (nth_map 0%N) ?size_iota // nth_iota.
have [Os [sO hO]] : exists l : seq arr, size l = d.-1 /\ forall mu, (mu < d.-1)%N ->
   omega (TSum s Xs) mu (sh2 D E mu) (nth L0 lcS mu) (nth L0 rcS mu) = Ok (nth C0 l mu) /\
   [/\ nwf (nth C0 l mu), nshape (nth C0 l mu) = sh2 D E mu & forall i, inb (sh2 D E mu) i ->
       get (nth C0 l mu) i = \sum_(t <- ss) get (nth C0 (Omega_mats t) mu) i].
  apply: (@exists_list _ C0 (fun mu V => omega (TSum s Xs) mu (sh2 D E mu) (nth L0 lcS mu) (nth L0 rcS mu) = Ok V /\
    [/\ nwf V, nshape V = sh2 D E mu & forall i, inb (sh2 D E mu) i ->
       get V i = \sum_(t <- ss) get (nth C0 (Omega_mats t) mu) i])) => mu hm; rewrite nl // nr // omega_sgo.
  have [||||||V -> [h1 h2 h3]] := @sgoE _ L0 (fun x => omega x mu (sh2 D E mu)) Xs [seq nth L0 L mu | L <- Ls] [seq nth L0 L mu | L <- Rs]
    [seq nth C0 (Omega_mats t) mu | t <- ss] (sh2 D E mu) X0 (zeros R (sh2 D E mu)); rewrite ?size_map //.
  - move=> k hk; rewrite !(nth_map [::]) ?size_map ?sLR // (nth_map c0) ?sss // hL // hR //.
    by have [_ _ _ + _] := hLR k hk; rewrite tk //; apply.
  - move=> W /List.in_map_iff[t [<- ht]]; by have [/(_ mu hm)[]] := hsh t ht.
  exists V; split=> //; split=> //; first by apply: h2; apply: nwf_zeros.
  by move=> i hi; rewrite h3 // get_zeros add0r big_map.
have [Ps [sP hP]] : exists l : seq arr, size l = d /\ forall mu, (mu < d)%N ->
   psi (TSum s Xs) mu (sh3 D E s mu) (larg lcS mu) (rarg rcS d mu) = Ok (nth C0 l mu) /\
   [/\ nwf (nth C0 l mu), nshape (nth C0 l mu) = sh3 D E s mu & forall i, inb (sh3 D E s mu) i ->
       get (nth C0 l mu) i = \sum_(t <- ss) get (nth C0 (Psi_cores t) mu) i].
  apply: (@exists_list _ C0 (fun mu V => psi (TSum s Xs) mu (sh3 D E s mu) (larg lcS mu) (rarg rcS d mu) = Ok V /\
   [/\ nwf V, nshape V = sh3 D E s mu & forall i, inb (sh3 D E s mu) i ->
       get V i = \sum_(t <- ss) get (nth C0 (Psi_cores t) mu) i])) => mu hm.
  have el : larg lcS mu = if mu is m.+1 then Some (Node [seq nth L0 L m | L <- Ls]) else None.
    by move: hm; clear -nl; case: mu => //= m hm; rewrite nl //; lia.
  have er : rarg rcS d mu = if (mu < d.-1)%N then Some (Node [seq nth L0 L mu | L <- Rs]) else None.
    by rewrite /rarg; case: ifP => // h; rewrite nr.
  rewrite el er psi_sgo; [|by case: (mu)|by case: ifP].
  have [||||||V -> [h1 h2 h3]] := @sgoE _ None (fun x => psi x mu (sh3 D E s mu)) Xs
     (spreado (size Xs) (if mu is m.+1 then Some (Node [seq nth L0 L m | L <- Ls]) else None))
     (spreado (size Xs) (if (mu < d.-1)%N then Some (Node [seq nth L0 L mu | L <- Rs]) else None))
    [seq nth C0 (Psi_cores t) mu | t <- ss] (sh3 D E s mu) X0 (zeros R (sh3 D E s mu)); rewrite ?size_map //.
  - by case: (mu) => [|m]; rewrite /= ?size_nseq ?size_map.
  - by case: ifP => _ /=; rewrite ?size_nseq ?size_map.
  - move=> k hk; rewrite (nth_map c0) ?sss //.
    have [_ _ _ _ +] := hLR k hk; rewrite tk // => /(_ mu hm).
    have -> : larg (nth ([::], [::]) LRs k).1 mu =
      nth None (spreado (size Xs) (if mu is m.+1 then Some (Node [seq nth L0 L m | L <- Ls]) else None)) k.
      clear -hL hk sLR; case: mu => [|m]; first by rewrite /spreado nth_nseq if_same.
      by rewrite /spreado /larg -map_comp (nth_map [::]) ?size_map ?sLR // hL.
    have -> // : rarg (nth ([::], [::]) LRs k).2 d mu =
      nth None (spreado (size Xs) (if (mu < d.-1)%N then Some (Node [seq nth L0 L mu | L <- Rs]) else None)) k.
    rewrite /rarg; case: ifP => hd; last by rewrite /spreado nth_nseq if_same.
    by rewrite /spreado -map_comp (nth_map [::]) ?size_map ?sLR // hR.
  - move=> W /List.in_map_iff[t [<- ht]]; by have [_ /(_ mu hm)[]] := hsh t ht.
  exists V; split=> //; split=> //; first by apply: h2; apply: nwf_zeros.
  by move=> i hi; rewrite h3 // get_zeros add0r big_map.
exists (mk_container Ps Os).
  apply/(gs_run (X := TSum s Xs) sD sE); split=> //; exists lcS, rcS; split=> //=.
  - by rewrite !size_map !size_iota.
  - by move=> mu hm; have [] := hO mu hm.
  - by move=> mu hm; have [] := hP mu hm.
split; first split.
- by move=> mu hm; have [_ []] := hO mu hm.
- by move=> mu hm; have [_ []] := hP mu hm.
- by move=> mu i hm; have [_ [_ _]] := hO mu hm; apply.
- by move=> mu i hm; have [_ [_ _]] := hP mu hm; apply.
Qed.
End Sum.
