(* Theory of the array model: index arithmetic, extensionality, sums, einsum. *)
From Coq Require Import String Ascii.
From mathcomp Require Import all_ssreflect all_algebra.
From mathcomp Require Import zify.
From Verif Require Import Py Nd.
Set Implicit Arguments. Unset Strict Implicit. Unset Printing Implicit Defensive.
Import GRing.Theory.
Local Open Scope ring_scope.

Section NdEq.
Variable R : eqType.
Definition nd_enc (a : nd R) := (nshape a, ndata a).
Definition nd_dec (p : seq nat * seq R) : nd R := Nd p.1 p.2.
Lemma nd_encK : cancel nd_enc nd_dec. Proof. by case. Qed.
Definition nd_eqMixin := CanEqMixin nd_encK.
Canonical nd_eqType := Eval hnf in EqType (nd R) nd_eqMixin.
End NdEq.

Lemma prods_cons n s : prods (n :: s) = (n * prods s)%N. Proof. by []. Qed.
Lemma prods_cat s t : prods (s ++ t) = (prods s * prods t)%N.
Proof. by elim: s => [|n s IH] /=; rewrite ?mul1n // IH mulnA. Qed.
Lemma prods_rev s : prods (rev s) = prods s.
Proof.
elim: s => [|n s IH] //; rewrite rev_cons -cats1 prods_cat IH /= muln1.
by rewrite /prods /= mulnC.
Qed.

Lemma inb_size s i : inb s i -> size i = size s.
Proof. by elim: s i => [|n s IH] [|k i] //= /andP[_ /IH ->]. Qed.

Lemma inb_cat s t i j : size i = size s -> inb (s ++ t) (i ++ j) = inb s i && inb t j.
Proof. by elim: s i => [|n s IH] [|k i] //= [/IH ->]; rewrite andbA. Qed.

Lemma inb_catP s t x : inb (s ++ t) x ->
  exists i j, [/\ x = i ++ j, inb s i & inb t j].
Proof.
move=> H; have Hs := inb_size H.
exists (take (size s) x), (drop (size s) x).
have E : size (take (size s) x) = size s.
  by rewrite size_take Hs size_cat; case: ltnP => //; lia.
split; first by rewrite cat_take_drop.
- by move: H; rewrite -{1}(cat_take_drop (size s) x) inb_cat // => /andP[].
- by move: H; rewrite -{1}(cat_take_drop (size s) x) inb_cat // => /andP[].
Qed.

Lemma inb_rcons s n i k : size i = size s ->
  inb (rcons s n) (rcons i k) = inb s i && (k < n)%N.
Proof. by move=> H; rewrite -!cats1 inb_cat //= andbT. Qed.

Lemma inb_rev s i : inb (rev s) (rev i) = inb s i.
Proof.
elim: s i => [|n s IH] [|k i] //.
- by rewrite rev_cons -cats1; case: (rev i).
- by rewrite rev_cons -cats1; case: (rev s).
rewrite !rev_cons /=; case: (eqVneq (size i) (size s)) => E.
  by rewrite inb_rcons ?size_rev // IH andbC.
have -> : inb s i = false by apply/negP => /inb_size; apply/eqP.
rewrite andbF; apply/negP => /inb_size /eqP.
by rewrite !size_rcons !size_rev eqSS (negbTE E).
Qed.

Lemma inb_nth s i k : inb s i -> (k < size s)%N -> (nth 0%N i k < nth 0%N s k)%N.
Proof.
elim: s i k => [|n s IH] [|x i] [|k] //= /andP[Hx Hi] //.
by rewrite ltnS => /(IH _ _ Hi).
Qed.

Lemma inbP s i : reflect (size i = size s /\
   forall k, (k < size s)%N -> (nth 0%N i k < nth 0%N s k)%N) (inb s i).
Proof.
apply: (iffP idP) => [H|].
  by split; [exact: inb_size | move=> k; exact: inb_nth].
elim: s i => [|n s IH] [|x i] //=; try by case.
case=> [[Hs]] Hk.
rewrite (Hk 0%N) //= IH //; split=> // k Hk'; exact: (Hk k.+1).
Qed.

Lemma ravel_lt s i : inb s i -> (ravel s i < prods s)%N.
Proof.
elim: s i => [|n s IH] [|k i] //= /andP[Hk /IH]; rewrite -/(prods s).
move=> H; apply: (@leq_trans ((k.+1) * prods s)%N); first by rewrite mulSn; lia.
by rewrite leq_mul2r Hk orbT.
Qed.

Lemma unravelK s i : inb s i -> unravel s (ravel s i) = i.
Proof.
elim: s i => [|n s IH] [|k i] //= /andP[Hk H].
have L := ravel_lt H.
have P : (0 < prods s)%N by apply: leq_ltn_trans L.
by rewrite divnMDl // modnMDl divn_small // modn_small // addn0 IH.
Qed.

Lemma inb_unravel s p : (p < prods s)%N -> inb s (unravel s p).
Proof.
elim: s p => [|n s IH] p //=; rewrite -/(prods s) => H.
have P : (0 < prods s)%N by move: H; case: (prods s) => //; rewrite muln0.
by rewrite ltn_divLR // H IH // ltn_mod.
Qed.

Lemma ravelK s p : (p < prods s)%N -> ravel s (unravel s p) = p.
Proof.
elim: s p => [|n s IH] p /=; first by case: p.
rewrite -/(prods s) => H.
have P : (0 < prods s)%N by move: H; case: (prods s) => //; rewrite muln0.
by rewrite IH ?ltn_mod // -divn_eq.
Qed.

Lemma ravel_cat s t i j : size i = size s ->
  ravel (s ++ t) (i ++ j) = (ravel s i * prods t + ravel t j)%N.
Proof.
elim: s i => [|n s IH] [|k i] //= [/IH ->].
by rewrite prods_cat mulnDl mulnA addnA.
Qed.

Lemma ravel_inj s i j : inb s i -> inb s j -> ravel s i = ravel s j -> i = j.
Proof. by move=> Hi Hj E; rewrite -(unravelK Hi) E unravelK. Qed.

(* sums ------------------------------------------------------------- *)
Section Sums.
Variable R : ringType.

Lemma sumrE n (f : nat -> R) : sumr n f = \sum_(0 <= i < n) f i.
Proof. by rewrite /sumr unlock /= /index_iota subn0. Qed.

Lemma eq_sumr n (f g : nat -> R) :
  (forall k, (k < n)%N -> f k = g k) -> sumr n f = sumr n g.
Proof. by move=> H; rewrite !sumrE; apply: eq_big_nat => k /= Hk; apply: H. Qed.

Lemma sum_nat_mul m n (f : nat -> R) :
  \sum_(0 <= p < m * n) f p = \sum_(0 <= i < m) \sum_(0 <= j < n) f (i * n + j)%N.
Proof.
elim: m => [|m IH]; first by rewrite mul0n !big_geq.
rewrite big_nat_recr //= -IH mulSn.
rewrite (big_cat_nat _ (n := (m * n)%N)) ?leq_addl //=; congr (_ + _).
rewrite -{1}(add0n (m * n)%N) big_addn addnK.
by apply: eq_big_nat => j _; rewrite addnC.
Qed.

Lemma sum_nat_delta n k (f : nat -> R) : (k < n)%N ->
  \sum_(0 <= i < n) (i == k)%:R * f i = f k.
Proof.
move=> H; rewrite (bigD1_seq k) /= ?mem_index_iota ?iota_uniq //.
rewrite eqxx mul1r big1_seq ?addr0 //.
by move=> i /andP[/negbTE -> _]; rewrite mul0r.
Qed.

Lemma sum_nat_delta_r n k (f : nat -> R) : (k < n)%N ->
  \sum_(0 <= i < n) f i * (i == k)%:R = f k.
Proof.
move=> H; rewrite -(sum_nat_delta f H); apply: eq_big_nat => i _.
by case: eqP => _; rewrite ?(mulr1, mul1r) // mulr0 mul0r.
Qed.

Lemma sum_nat_delta_out n k (f : nat -> R) : ~~ (k < n)%N ->
  \sum_(0 <= i < n) (i == k)%:R * f i = 0.
Proof.
move=> H; rewrite big1_seq // => i /=; rewrite mem_index_iota => /andP[_ Hi].
by case: eqP => [E|]; rewrite ?mul0r //; move: H; rewrite -E Hi.
Qed.
End Sums.

(* arrays ----------------------------------------------------------- *)
Section NdThy.
Variable R : ringType.
Implicit Types (a b : nd R) (s t i j : seq nat).

Lemma nwf_tab s (f : seq nat -> R) : nwf (tab s f).
Proof. by rewrite /nwf /= size_map size_iota. Qed.

Lemma get_tab s (f : seq nat -> R) i : inb s i -> get (tab s f) i = f i.
Proof.
move=> H; rewrite /get /= (nth_map 0%N) ?size_iota ?ravel_lt //.
by rewrite nth_iota ?ravel_lt // add0n unravelK.
Qed.

Lemma nd_ext a b : nwf a -> nwf b -> nshape a = nshape b ->
  (forall i, inb (nshape a) i -> get a i = get b i) -> a = b.
Proof.
case: a b => [s d] [t e]; rewrite /nwf /= => /eqP Hd /eqP He E; subst t => H.
congr Nd.
apply: (@eq_from_nth _ 0); first by rewrite Hd He.
move=> p; rewrite Hd => Hp.
by have := H _ (inb_unravel Hp); rewrite /get /= ravelK.
Qed.

Lemma tab_ext s (f g : seq nat -> R) : (forall i, inb s i -> f i = g i) ->
  tab s f = tab s g.
Proof.
move=> H; apply: nd_ext; rewrite ?nwf_tab // => i Hi; rewrite !get_tab //; exact: H.
Qed.

Lemma tab_get a : nwf a -> tab (nshape a) (get a) = a.
Proof. by move=> H; apply: nd_ext; rewrite ?nwf_tab // => i Hi; rewrite get_tab. Qed.

(* entries correspond under reshape when their flat positions agree *)
Lemma get_ravel s t (d : seq R) i j :
  ravel s i = ravel t j -> get (Nd s d) i = get (Nd t d) j.
Proof. by rewrite /get /= => ->. Qed.

Lemma reshapeE a s : prods s = prods (nshape a) -> reshape a s = Ok (Nd s (ndata a)).
Proof. by rewrite /reshape => ->; rewrite eqxx. Qed.

Lemma nwf_reshape a s : nwf a -> prods s = prods (nshape a) -> nwf (Nd s (ndata a)).
Proof. by rewrite /nwf /= => /eqP -> ->. Qed.

Lemma get_reshape a s i j : ravel s i = ravel (nshape a) j ->
  get (Nd s (ndata a)) i = get a j.
Proof. by case: a => t d; apply: get_ravel. Qed.

Lemma reshape_ok a s b : reshape a s = Ok b ->
  [/\ nshape b = s, ndata b = ndata a & prods s = prods (nshape a)].
Proof. by rewrite /reshape; case: eqP => // E [<-]. Qed.

Lemma getb_get a i : inb (nshape a) i -> getb a i = get a i.
Proof.
move=> H; rewrite /getb (inb_size H) subnn drop0; congr get.
elim: (nshape a) i H => [|n s IH] [|k i] //= /andP[Hk /IH ->].
by case: eqP Hk => // ->; case: k.
Qed.

Lemma bcast_revs s : bcast_rev s s = Some s.
Proof. by elim: s => [|n s IH] //=; rewrite eqxx /= IH. Qed.
Lemma bcasts s : bcast s s = Some s.
Proof. by rewrite /bcast bcast_revs /= revK. Qed.

Lemma elementwiseE op a b : nshape a = nshape b ->
  elementwise op a b = Ok (tab (nshape a) (fun i => op (get a i) (get b i))).
Proof.
move=> E; rewrite /elementwise -E bcasts; congr Ok; apply: tab_ext => i Hi.
by rewrite !getb_get -?E.
Qed.

Lemma naddE a b : nshape a = nshape b ->
  nadd a b = Ok (tab (nshape a) (fun i => get a i + get b i)).
Proof. exact: elementwiseE. Qed.

Lemma iaddE a b : nshape a = nshape b ->
  iadd a b = Ok (tab (nshape a) (fun i => get a i + get b i)).
Proof. by move=> E; rewrite /iadd -E bcasts eqxx naddE. Qed.

Lemma get_zeros s i : get (zeros R s) i = 0.
Proof.
rewrite /get /zeros /=; set p := ravel _ _.
case: (ltnP p (prods s)) => H; last by rewrite nth_default // size_map size_iota.
by rewrite (nth_map 0%N) // size_iota.
Qed.

(* einsum ----------------------------------------------------------- *)
Section Einsum.
Variable dm : label -> nat.

Definition addl (m : seq label) (l : label) := if l \in m then m else rcons m l.

Definition mkd (m : seq label) : dimmap := [seq (l, dm l) | l <- m].

Lemma add_dimE m l : add_dim (mkd m) l (dm l) = Ok (mkd (addl m l)).
Proof.
rewrite /addl; elim: m => [|l' m IH] //=; rewrite in_cons.
case: eqP => [->|_] /=.
  by rewrite eqxx orbT; case: ifP.
by rewrite IH /=; case: (l \in m).
Qed.

Lemma add_dimsE m ls :
  foldM (fun m ln => add_dim m ln.1 ln.2) (mkd m) (zip ls (map dm ls))
  = Ok (mkd (foldl addl m ls)).
Proof. by elim: ls m => [|l ls IH] m //=; rewrite add_dimE /= IH. Qed.

Definition shapes_ok (ins : seq (seq label)) (ops : seq (nd R)) :=
  map (@nshape R) ops = map (map dm) ins.

Lemma add_operandsE ins ops m : shapes_ok ins ops ->
  foldM (@add_operand R) (mkd m) (zip ins ops) = Ok (mkd (foldl addl m (flatten ins))).
Proof.
elim: ins ops m => [|ls ins IH] [|a ops] m //= [E Es].
by rewrite /add_operand /ndim /= E size_map eqxx add_dimsE /= IH // foldl_cat.
Qed.

Lemma addl_mem m l x : (x \in addl m l) = (x == l) || (x \in m).
Proof.
rewrite /addl; case: ifP => H; rewrite ?mem_rcons ?in_cons //.
by case: eqP => // ->.
Qed.

Lemma addls_mem m ls x : (x \in foldl addl m ls) = (x \in ls) || (x \in m).
Proof.
elim: ls m => [|l ls IH] m //=; rewrite IH addl_mem in_cons.
by rewrite orbCA orbA.
Qed.

Lemma lookup_mkd m l : l \in m -> lookup (mkd m) l = dm l.
Proof. by elim: m => [|l' m IH] //=; rewrite in_cons; case: eqP => [->|] //=. Qed.

Definition okenv (L : seq label) (env : dimmap) :=
  forall l, l \in L -> (lookup env l < dm l)%N.

Lemma okenv_zip out idx : inb (map dm out) idx -> okenv out (zip out idx).
Proof.
elim: out idx => [|l out IH] [|k idx] //= /andP[Hk Hi] l'; rewrite in_cons /=.
by case: eqP => [->|_] //=; apply: IH.
Qed.

Lemma sum_lbl_ext L ls env (f g : dimmap -> R) :
  okenv L env -> (forall e, okenv (L ++ ls) e -> f e = g e) ->
  sum_lbl (mkd ls) env f = sum_lbl (mkd ls) env g.
Proof.
elim: ls L env => [|l ls IH] L env He H /=; first by apply: H; rewrite cats0.
apply: eq_sumr => k Hk; apply: (IH (rcons L l)); last first.
  by move=> e; rewrite cat_rcons; apply: H.
by move=> x; rewrite mem_rcons in_cons /=; case: eqP => [->|_] //= /He.
Qed.

Lemma filter_mkd (P : pred label) m : [seq p <- mkd m | P p.1] = mkd [seq l <- m | P l].
Proof. by rewrite /mkd filter_map. Qed.

Lemma unzip1_mkd m : unzip1 (mkd m) = m.
Proof. by rewrite /unzip1 /mkd -map_comp map_id. Qed.

Lemma inb_lookup ls env : okenv ls env -> inb (map dm ls) (map (lookup env) ls).
Proof.
elim: ls => [|l ls IH] //= H; rewrite H ?mem_head //= IH // => x Hx.
by apply: H; rewrite in_cons Hx orbT.
Qed.

Lemma einsum_lblE ins out (ops : seq (nd R)) : shapes_ok ins ops ->
  uniq out -> all (fun l => l \in flatten ins) out ->
  einsum_lbl ins out ops =
   Ok (tab (map dm out) (fun idx =>
     sum_lbl (mkd [seq l <- foldl addl [::] (flatten ins) | l \notin out]) (zip out idx)
       (fun env => foldr (fun p acc => get p.2 (map (lookup env) p.1) * acc) 1
                         (zip ins ops)))).
Proof.
move=> Hs Hu Ho; have Hsz : size ins = size ops.
  by move: Hs; rewrite /shapes_ok => /(congr1 size); rewrite !size_map.
rewrite /einsum_lbl Hsz eqxx (@add_operandsE _ _ [::]) //=.
set L := foldl addl [::] (flatten ins); rewrite unzip1_mkd Hu andbT.
have HL l : (l \in L) = (l \in flatten ins) by rewrite addls_mem in_nil orbF.
have -> : all (fun l => l \in L) out.
  by apply/allP => l /(allP Ho); rewrite -HL.
congr Ok.
have -> : [seq lookup (mkd L) l | l <- out] = map dm out.
  by apply/eq_in_map => l /(allP Ho) H; rewrite lookup_mkd ?HL.
apply: tab_ext => idx Hidx; rewrite (filter_mkd (fun l => l \notin out)).
apply: (sum_lbl_ext (okenv_zip Hidx)) => e He.
have {}He : okenv (flatten ins) e.
  move=> l Hl; apply: He; rewrite mem_cat mem_filter HL Hl andbT.
  by case: (l \in out).
elim: ins ops Hs {Hsz L HL Ho} He => [|ls ins IH] [|a ops] //= [E Es] He.
rewrite IH //; last by move=> l Hl; apply: He; rewrite mem_cat Hl orbT.
congr (_ * _); rewrite getb_get // E; apply: inb_lookup => l Hl.
by apply: He; rewrite mem_cat Hl.
Qed.
End Einsum.

End NdThy.
