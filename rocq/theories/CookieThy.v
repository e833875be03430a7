From Coq Require Import String Ascii NArith.
From mathcomp Require Import all_ssreflect all_algebra.
From mathcomp Require Import zify.
From Verif Require Import Py Nd Utils UtilsNum Tensor TensorNum Sketch Mpo Gmres Cookie CookieSpec Spec LinSpec RecSpec SkSpec MpoSpec GmresSpec.
From Verif Require Import NdThy Ein MatThy TensorThy TensorThy2 ChainThy SweepThy RoundThy SkThy1 SkThy2 RecThy3 PrecThy Prop_Mpo Prop_Prec GmresThy1.
Set Implicit Arguments. Unset Strict Implicit. Unset Printing Implicit Defensive.
Import GRing.Theory Num.Theory.
Local Open Scope ring_scope.

Section U.
Variable R : rcfType.
Notation arr := (nd R).
Notation tensor := (tensor R).
Notation allpos := (all (fun n => 0 < n)%N).

Lemma unit_links (s i : seq nat) : inb s i -> links 1 (unit_train R s i) 1 /\ [seq dim C 1 | C <- unit_train R s i] = s.
Proof.
elim: s i => [|n s IH] [|k i] //= /andP[hk /IH[L e]]; rewrite /unit_train /=; split.
  by apply/and3P; split=> //; exact: nwf_tab.
by congr (_ :: _).
Qed.
Lemma unit_wf (s i : seq nat) : s != [::] -> inb s i -> wf_tt (unit_train R s i) /\ tshape (TT (unit_train R s i)) = s.
Proof.
move=> s0 h; have [L e] := unit_links h; split=> //; rewrite /wf_tt L andbT.
by case: (s) (i) s0 h => [|n s'] [|k i'].
Qed.
Lemma unit_den (s i k : seq nat) : inb s i -> inb s k -> den (TT (unit_train R s i)) k = (k == i)%:R.
Proof.
rewrite [den _ _]/=; elim: s i k => [|n s IH] [|a i] [|b k] //= /andP[ha hi] /andP[hb hk].
rewrite big_nat1 -/(unit_train R s i) IH // get_tab //= ?hb //.
by rewrite eqseq_cons; case: (b == a); rewrite ?mul1r ?mul0r.
Qed.

Lemma user_act (ins outs : seq nat) (call : seq arr -> res (seq arr)) s t act : s != [::] -> linear_on s t act -> computes call s t act ->
  forall x j, inb t j -> map_act (MapUser ins outs call) s x j = act x j.
Proof.
move=> s0 hl hc x j hj; rewrite [map_act _ _ _ _]/=.
have -> : act x j = act (fun k => \sum_(p <- index_iota 0 (prods s)) x (unravel s p) * (k == unravel s p)%:R) j.
  apply: hl.1 => // k hk; rewrite -[LHS](sum_idx_delta (fun i => x i) hk) sum_idx_flat.
  by apply: eq_bigr => p _; rewrite mulrC eq_sym.
rewrite (lin_sum _ _ _ hl) // sum_idx_flat; apply: eq_big_nat => p /andP[_ hp]; rewrite mulrC; congr (_ * _).
have hi := inb_unravel hp.
have [w e] := unit_wf s0 hi; rewrite /response; have [ys -> [_ _ _ ->]] := hc _ w e => //.
by apply: hl.1 => // k hk; rewrite unit_den.
Qed.

Lemma user_ok qr (call : seq arr -> res (seq arr)) s t act : s != [::] -> linear_on s t act -> computes call s t act -> map_ok qr (MapUser s t call) s t.
Proof.
move=> s0 hl hc; split=> // cs w e; have [ys -> [wy sy ry gy]] := hc cs w e; split=> // j hj.
by rewrite gy // -(user_act s t s0 hl hc).
Qed.

(* ---- CookieMap ---- *)
Lemma es_ijk_j (A B : arr) ni nj nk :
  nshape A = [:: ni; nj; nk] -> nshape B = [:: nj] ->
  einsum "ijk,j->ijk" [:: A; B] = Ok (tab3 ni nj nk (fun xi xj xk => get A [:: xi; xj; xk] * get B [:: xj])).
Proof.
move=> HA HB.
einsum_tac [:: ("i",ni); ("j",nj); ("k",nk)]%string.
apply: tab_ext => x /inb3P[xi [xj [xk [-> _ _ _]]]] /=.
by rewrite /= mulr1.
Qed.

Lemma cookie_lin (A : arr) mode (coeffs : arr) s : (0 < size s)%N -> linear_on s s (cookie_act A mode coeffs s).
Proof.
move=> s0; split=> [x y j h hj|c x y j hj]; rewrite /cookie_act.
  by congr (_ * _); apply: eq_big_nat => l /andP[_ hl]; rewrite h //; apply: inb_upd.
rewrite mulrCA -mulrDr; congr (_ * _); rewrite big_distrr -big_split /=; apply: eq_bigr => l _.
by rewrite mulrDr mulrCA.
Qed.

Lemma cookie_callE (A : arr) mode (coeffs : arr) s : (mode < size s)%N -> is_mat A (nth 0%N s 0) (nth 0%N s 0) ->
  (mode != 0%N -> is_vec coeffs (nth 0%N s mode)) ->
  forall cs, wf_tt cs -> tshape (TT cs) = s -> exists2 ys, cookie_call A mode coeffs cs = Ok ys &
    [/\ wf_tt ys, tshape (TT ys) = s, tt_rank ys = tt_rank cs &
        forall j, inb s j -> den (TT ys) j = cookie_act A mode coeffs s (den (TT cs)) j].
Proof.
move=> hm [wA sA] hc cs w e; have sz : size cs = size s by rewrite -e size_map.
have h0 : (0 < size cs)%N by rewrite sz; case: (size s) hm.
have [wC sC] := tt_core_shape w h0; rewrite e in sC.
rewrite /cookie_call (pygetE (Nd [::] [::]) h0) /=; set C := nth _ cs _ in wC sC *.
rewrite (es_ijk_jl sC sA) /=; set C' := tab3 _ _ _ _; rewrite pysetE //; cbn [bind].
have sCC : nshape C' = nshape C by rewrite sC.
have wC' : nwf C' := nwf_tab3 _ _ _ _.
have [w1 s1 r1] := setc_tt w h0 wC' sCC.
have g1 j : inb s j -> den (TT (setc 0 cs C')) j = \sum_(0 <= l < nth 0%N s 0) get A [:: l; nth 0%N j 0] * den (TT cs) (upd j 0 l).
  move=> hj; apply: (@setc_chain R 1 cs 1 0 C' (nth 0%N s 0) (fun k l => get A [:: l; k])) => //.
  - by case/andP: w.
  - by rewrite /dim -/C sC.
  - by rewrite -/C => x k y hx hk hy; rewrite get_tab3 //; apply: eq_bigr => l _; rewrite mulrC.
  - by rewrite -[X in inb X]e in hj.
have [em|em] := eqVneq mode 0%N.
  exists (setc 0 cs C') => //; split=> //; first exact: (etrans s1 e).
  by move=> j hj; apply: etrans (g1 j hj) _; rewrite /cookie_act em mul1r.
have [wc sc] := hc em.
have hm1 : (mode < size (setc 0 cs C'))%N by rewrite -(size_map (fun C : arr => dim C 1)) [map _ _]s1 e.
have [wD sD] := tt_core_shape w1 hm1; rewrite s1 e in sD.
rewrite (pygetE (Nd [::] [::]) hm1) /=; set D := nth _ (setc 0 cs C') _ in wD sD *.
rewrite (es_ijk_j sD sc) /=; set D' := tab3 _ _ _ _; rewrite pysetE //; cbn [bind].
have sDD : nshape D' = nshape D by rewrite sD.
have wD' : nwf D' := nwf_tab3 _ _ _ _.
have [w2 s2 r2] := setc_tt w1 hm1 wD' sDD.
exists (setc mode (setc 0 cs C') D') => //; split=> //; [exact: (etrans s2 (etrans s1 e))|by rewrite r2 r1|].
move=> j hj; have hj1 : inb (tshape (TT (setc 0 cs C'))) j by rewrite s1 e.
have hk : (nth 0 j mode < nth 0 s mode)%N by apply: nth_inb.
have sj : (mode < size j)%N by rewrite (size_inb hj).
rewrite /cookie_act (negPf em) -g1 //.
apply: (@etrans _ (den (TT (setc mode (setc 0 cs C') D')) j)) => //.
have -> : den (TT (setc mode (setc 0 cs C') D')) j =
   \sum_(0 <= l < nth 0%N s mode) (nth 0%N j mode == l)%:R * get coeffs [:: l] * den (TT (setc 0 cs C')) (upd j mode l).
  apply: (@setc_chain R 1 (setc 0 cs C') 1 mode D' (nth 0%N s mode) (fun k l => (k == l)%:R * get coeffs [:: l])) => //.
  - by case/andP: w1.
  - by rewrite /dim -/D sD.
  - rewrite -/D => x k y hx hk' hy; rewrite get_tab3 //.
    rewrite (bigD1_seq k) ?mem_index_iota ?iota_uniq //= eqxx mul1r [X in _ = _ + X]big1 ?addr0 1?mulrC //.
    by move=> l hl; rewrite eq_sym (negPf hl) !mul0r.
rewrite (bigD1_seq (nth 0%N j mode)) ?mem_index_iota ?iota_uniq //= eqxx mul1r [X in _ + X]big1 ?addr0 //.
  by rewrite upd_nth.
by move=> l hl; rewrite eq_sym (negPf hl) !mul0r.
Qed.
End U.

Section Prep.
Variable R : rcfType.
Notation arr := (nd R).
Notation d0 := (Nd [::] [::] : arr).

Lemma zip_iota (T : Type) (x0 : T) (l : seq T) : zip (iota 0 (size l)) l = [seq (k, nth x0 l k) | k <- iota 0 (size l)].
Proof.
suff h m : zip (iota m (size l)) l = [seq (k, nth x0 l (k - m)) | k <- iota m (size l)].
  by rewrite h; apply: eq_map => k; rewrite subn0.
elim: l m => [|x l IH] m //=; rewrite subnn IH; congr (_ :: _).
apply/eq_in_map => k; rewrite mem_iota => /andP[hk _]; by rewrite -(ltn_predK hk) subSS [k.-1.+1](ltn_predK hk) (_ : (k - m = (k.-1 - m).+1)%N); [|lia].
Qed.

Lemma nsum_tab1 n (f : nat -> R) : nsum (tab [:: n] (fun i => f (nth 0%N i 0))) = \sum_(0 <= i < n) f i.
Proof.
rewrite /nsum /= muln1 foldr_map unlock /= /index_iota subn0; elim: (iota 0 n) => //= i l ->.
by rewrite divn1.
Qed.
Lemma size_tab1 n (f : seq nat -> R) : size (ndata (tab [:: n] f)) = n.
Proof. by rewrite /= size_map size_iota muln1. Qed.

Lemma mean_ones n : (0 < n)%N -> nmean (nones R [:: n]) = 1.
Proof.
move=> n0; rewrite /nmean size_tab1 (nsum_tab1 n (fun=> 1)) big_const_nat subn0 iter_addr_0.
by rewrite divff // pnatr_eq0 -lt0n.
Qed.

Lemma sum_nat_R n : \sum_(0 <= i < n) i%:R *+ 2 = (n * n.-1)%:R :> R.
Proof.
elim: n => [|n IH]; first by rewrite big_geq.
rewrite big_nat_recr //= IH -mulrnA -natrD; congr (_ %:R); by case: n {IH} => //= n; lia.
Qed.
Lemma mean_linspace n : (0 < n)%N -> nmean (linspace 0 (10%:R : R) n) = if n == 1%N then 0 else 5%:R.
Proof.
move=> n0; rewrite /nmean size_tab1 (nsum_tab1 n (fun k => if (n <= 1)%N then 0 else 0 + k%:R * ((10%:R - 0) / n.-1%:R))).
case: (leqP n 1%N) => h; first by rewrite big1 // (_ : n == 1%N) ?mul0r //; clear -h n0; lia.
rewrite (_ : (n == 1%N) = false); last by lia.
have p0 : n%:R != 0 :> R by rewrite pnatr_eq0; lia.
have p1 : n.-1%:R != 0 :> R by rewrite pnatr_eq0; lia.
under eq_bigr => i _ do rewrite add0r subr0; rewrite -big_distrl /=.
apply: (mulIf p0); rewrite divfK // mulrA; apply: (mulIf p1); rewrite divfK //.
rewrite (_ : 10%:R = 2%:R * 5%:R :> R); last by rewrite -natrM.
rewrite mulrA; have -> : (\sum_(0 <= i < n) i%:R) * 2%:R = (n * n.-1)%:R :> R by rewrite -sum_nat_R mulr_natr sumrMnl.
by rewrite natrM mulrC mulrA.
Qed.

Variables (As : seq arr) (n k : nat).
Notation dd := (size As).
Notation sh := (n :: nseq dd.-1 k).
Hypotheses (hA : forall mu, (mu < dd)%N -> is_mat (nth d0 As mu) n n) (dpos : (0 < dd)%N).
Notation cc mu := (cookie_coeffs k mu (nth d0 As mu)).
Definition prec_mat : arr := sum_axis0 (stacked [seq nscale (nmean (cc mu)) (nth d0 As mu) | mu <- iota 0 dd]).
Definition ck_maps : seq (ttmap R) := [seq cookie_map (nth d0 As mu) mu sh (cc mu) | mu <- iota 0 dd].

Lemma nth_sh mu : (mu < dd)%N -> nth 0%N sh mu = if mu == 0%N then n else k.
Proof. by case: mu => [|mu] h //=; rewrite nth_nseq (_ : (mu < dd.-1)%N) //; clear -h; lia. Qed.
Lemma size_sh : size sh = dd.
Proof. by rewrite /= size_nseq prednK. Qed.

Lemma prec_matP : is_mat prec_mat n n /\
  forall i j, (i < n)%N -> (j < n)%N -> get prec_mat [:: i; j] = \sum_(0 <= mu < dd) nmean (cc mu) * get (nth d0 As mu) [:: i; j].
Proof.
rewrite /prec_mat; set l := [seq _ | _ <- _].
have sl : size l = dd by rewrite size_map size_iota.
have hd : nshape (nth d0 l 0) = [:: n; n].
  by rewrite (nth_map 0%N) ?size_iota // nth_iota //= (hA dpos).2.
have es : nshape (stacked l) = [:: dd; n; n].
  by rewrite [LHS]/= sl; congr (_ :: _); case: (l) sl hd => [|A l'] //= e; move: dpos; rewrite -e.
have sP : nshape (sum_axis0 (stacked l)) = [:: n; n] by rewrite -[LHS]/(behead (nshape (stacked l))) es.
split; first by split; [exact: nwf_tab|].
move=> i j hi hj; rewrite /sum_axis0 get_tab; last by rewrite es /= hi hj.
rewrite /dim es sumrE; apply: eq_big_nat => mu /andP[_ hmu]; rewrite /stacked get_tab.
  have -> : nth d0 l mu = nscale (nmean (cc mu)) (nth d0 As mu) by rewrite (nth_map 0%N) ?size_iota // nth_iota.
  by rewrite /nscale get_tab; [rewrite mulrC|rewrite (hA hmu).2 /= hi hj].
by rewrite -[X in inb X]/(nshape (stacked l)) es /= hmu hi hj.
Qed.

Lemma ck_mapsum : mapsum_new ck_maps = Ok (MapSum ck_maps sh sh).
Proof.
rewrite /ck_maps; case: dd dpos => // m _; cbn [iota map]; rewrite /mapsum_new; set fm := [seq _ | _ <- iota 1 m].
have -> : forall u, foldM (fun (_ : unit) (g : ttmap R) => if map_in g != map_in (cookie_map (nth d0 As 0) 0 (n :: nseq m.+1.-1 k) (cc 0)) then Err ValueError
       else if map_out g != map_out (cookie_map (nth d0 As 0) 0 (n :: nseq m.+1.-1 k) (cc 0)) then Err ValueError else Ok tt) u fm = Ok (if nilp fm then u else tt).
  by rewrite /fm; elim: (iota 1 m) => [|x l IH] u //=; rewrite eqxx /= IH; case: ifP.
by [].
Qed.

Lemma prepareE qr bmat : nwf bmat -> prods (nshape bmat) = n ->
  prepare_cookie_problem qr As bmat k = (do p <- precond_new qr prec_mat sh 0;
    Ok (MapSum ck_maps sh sh, Nd [:: 1; n; 1]%N (ndata bmat) :: [seq nones R [:: 1; m; 1]%N | m <- nseq dd.-1 k], p)).
Proof.
move=> wb eb; rewrite /prepare_cookie_problem /reshape_infer /= dvd1n divn1 /reshape /= muln1 eqxx /= muln1.
rewrite dvd1n divn1 /= !muln1 mul1n eqxx /=.
rewrite (pygetE d0 dpos) /= eb.
have -> : all (fun A => nshape A == nshape (nth d0 As 0)) As.
  by apply/(all_nthP d0) => i hi; rewrite (hA hi).2 (hA dpos).2.
have -> : dim (nth d0 As 0) 0 = n by rewrite /dim (hA dpos).2.
rewrite (zip_iota d0) -!map_comp; cbn [bind]; set pn := precond_new _ _ _ _.
have -> : pn = precond_new qr prec_mat sh 0 by [].
case: (precond_new _ _ _ _) => //= p.
rewrite zip_map -map_comp; set ms := [seq _ | _ <- iota 0 dd].
have -> : ms = ck_maps by [].
by rewrite ck_mapsum.
Qed.
End Prep.
