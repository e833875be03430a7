(* Property C61: linear maps written by a user of the package (subclasses of TTLinearMap) in
   tt_sum_gmres, with scripts/cookie_problem.py as the instance. *)
From Coq Require Import String Ascii NArith.
From mathcomp Require Import all_ssreflect all_algebra.
From mathcomp Require Import zify.
From Verif Require Import Py Nd Utils UtilsNum Tensor TensorNum Sketch Mpo Gmres Cookie CookieSpec Spec LinSpec RecSpec SkSpec MpoSpec GmresSpec GmRunSpec.
From Verif Require Import NdThy Ein MatThy TensorThy TensorThy2 ChainThy SweepThy RoundThy SkThy1 SkThy2 RecThy3 PrecThy Prop_Mpo Prop_Prec GmresThy1 CookieThy LinExist NoLinSpec NoLin Prop_Total.
Set Implicit Arguments. Unset Strict Implicit. Unset Printing Implicit Defensive.
Import GRing.Theory Num.Theory.
Local Open Scope ring_scope.

Section P.
Variable R : rcfType.
Notation arr := (nd R).
Notation allpos := (all (fun n => 0 < n)%N).

(* any linear map whose __call__ computes a linear function of the entries is a valid operand of
   TTLinearMapSum and tt_sum_gmres ([map_ok], the hypothesis of C43 and C45), and the function is the
   one these theorems speak about ([map_act]) *)
Theorem C61_user_map qr (call : seq arr -> res (seq arr)) s t act : s != [::] -> linear_on s t act -> computes call s t act ->
  map_ok qr (MapUser s t call) s t /\ forall x j, inb t j -> map_act (MapUser s t call) s x j = act x j.
Proof. by move=> s0 hl hc; split; [exact: user_ok s0 hl hc|exact: user_act s0 hl hc]. Qed.

(* CookieMap(A, mode, shape, coeffs)(x): the TRANSPOSE of A is applied to mode 0, and then mode number
   [mode] (if not 0) is multiplied by the coefficients *)
Theorem C61_cookie_call (A : arr) mode (coeffs : arr) cs x : wf_tt cs -> (mode < size cs)%N -> to_numpy (TT cs) = Ok x ->
  is_mat A (dim x 0) (dim x 0) -> (mode != 0%N -> is_vec coeffs (dim x mode)) ->
  exists ys y, [/\ cookie_call A mode coeffs cs = Ok ys, wf_tt ys /\ tt_rank ys = tt_rank cs,
    to_numpy (TT ys) = Ok y, nshape y = nshape x &
    forall j, inb (nshape x) j -> get y j = (if mode == 0%N then 1 else get coeffs [:: nth 0%N j mode]) *
      \sum_(0 <= l < dim x 0) get A [:: l; nth 0%N j 0] * get x (upd j 0 l)].
Proof.
move=> w hm ex; have [x' ex' [wx sx gx]] := to_numpyE (w : wf (TT cs)).
move: ex; rewrite ex' => -[e]; subst x'; rewrite /dim sx => hA hc.
have hm' : (mode < size (tshape (TT cs)))%N by rewrite /= size_map.
have [ys ey [wy sy ry gy]] := cookie_callE hm' hA hc w erefl.
have [y e [wy' sy' gy']] := to_numpyE (wy : wf (TT ys)).
exists ys, y; split=> //; first by rewrite sy' sy.
move=> j hj; rewrite gy' ?sy // gy // /cookie_act; congr (_ * _); apply: eq_big_nat => l /andP[_ hl].
by rewrite gx //; apply: inb_upd.
Qed.

(* ---- prepare_cookie_problem ---- *)
Notation d0 := (Nd [::] [::] : arr).
(* the arguments: d > 0 matrices of size n x n, a vector of n entries (in an array of any shape) *)
Definition cookie_args (As : seq arr) (bmat : arr) (n k : nat) : Prop :=
  [/\ (0 < size As)%N, forall mu, (mu < size As)%N -> is_mat (nth d0 As mu) n n, nwf bmat, prods (nshape bmat) = n & (0 < n)%N /\ (0 < k)%N].
(* the tensor product grid: one mode of size n, and one of size num_coeffs for each further matrix *)
Definition cookie_shape (As : seq arr) (n k : nat) : seq nat := n :: nseq (size As).-1 k.
(* the coefficient of matrix mu at the grid point j: 1 for mu = 0, else the j_mu-th of k equally
   spaced points from 0 to 10 *)
Definition cookie_weight (k mu : nat) (j : seq nat) : R :=
  if mu == 0%N then 1 else (nth 0%N j mu)%:R * (10%:R / k.-1%:R).
Definition transposed_entry (A : arr) (i j : nat) : R := get A [:: j; i].

Section Prep.
Variables (As : seq arr) (bmat : arr) (n k : nat) (qr : arr -> res (arr * arr)).
Hypothesis args : cookie_args As bmat n k.
Hypothesis qrP : qr_tri_contract qr.
Notation d := (size As).
Notation s := (cookie_shape As n k).
Let dpos : (0 < d)%N. Proof. by case: args. Qed.
Let hA mu : (mu < d)%N -> is_mat (nth d0 As mu) n n. Proof. by case: args => _ h _ _ _; exact: h. Qed.
Let wb : nwf bmat. Proof. by case: args. Qed.
Let eb : prods (nshape bmat) = n. Proof. by case: args. Qed.
Let n0 : (0 < n)%N. Proof. by case: args => _ _ _ _ []. Qed.
Let k0 : (0 < k)%N. Proof. by case: args => _ _ _ _ []. Qed.
Notation cc mu := (cookie_coeffs k mu (nth d0 As mu)).
Let Bc := Nd [:: 1; n; 1]%N (ndata bmat) :: [seq nones R [:: 1; m; 1]%N | m <- nseq d.-1 k].

Let sizes : size s = d. Proof. exact: size_sh. Qed.
Let vec mu : (mu < d)%N -> mu != 0%N -> is_vec (cc mu) (nth 0%N s mu).
Proof. by move=> h m0; rewrite /cookie_shape nth_sh // /cookie_coeffs (negPf m0); split; first exact: nwf_tab. Qed.
Let mat mu : (mu < d)%N -> is_mat (nth d0 As mu) (nth 0%N s 0) (nth 0%N s 0). Proof. exact: hA. Qed.
Let comp mu : (mu < d)%N -> computes (cookie_call (nth d0 As mu) mu (cc mu)) s s (cookie_act (nth d0 As mu) mu (cc mu) s).
Proof.
move=> h cs w e; have hm : (mu < size s)%N by rewrite sizes.
have [ys -> [wy sy ry gy]] := cookie_callE hm (mat h) (vec h) w e; exists ys => //; split=> //; by rewrite ry.
Qed.
Let sne : s != [::]. Proof. by []. Qed.
Let lin mu := @cookie_lin R (nth d0 As mu) mu (cc mu) s isT.

Let actE mu x j : (mu < d)%N -> inb s j -> map_act (cookie_map (nth d0 As mu) mu s (cc mu)) s x j =
  cookie_weight k mu j * \sum_(0 <= l < n) transposed_entry (nth d0 As mu) (nth 0%N j 0) l * x (upd j 0 l).
Proof.
move=> h hj; rewrite (user_act _ _ sne (lin mu) (comp h)) // /cookie_act /cookie_weight; congr (_ * _).
rewrite /cookie_coeffs; case: eqP => // m0; have hjm : (nth 0 j mu < k)%N.
  by rewrite (leq_trans (nth_inb hj _)) ?sizes // /cookie_shape nth_sh //; case: eqP.
rewrite /linspace get_tab /= ?hjm //; case: (leqP k 1%N) => hk; last by rewrite add0r subr0.
by rewrite (_ : nth 0%N j mu = 0%N) ?mul0r //; clear -hjm hk; lia.
Qed.

Let okE f : List.In f (ck_maps As n k) -> map_ok qr f s s.
Proof.
rewrite /ck_maps => hf; have [mu hmu ->] : exists2 mu, (mu < d)%N & f = cookie_map (nth d0 As mu) mu s (cc mu).
  have : forall mu, mu \in iota 0 d -> (mu < d)%N by move=> mu; rewrite mem_iota.
  elim: (iota 0 d) hf => //= a l IH [<-|h] H; first by exists a => //; apply: H; rewrite inE eqxx.
  by apply: IH h _ => mu hm; apply: H; rewrite inE hm orbT.
exact: user_ok sne (lin mu) (comp hmu).
Qed.

Let BP : [/\ wf_tt Bc, tshape (TT Bc) = s, all (fun r => r == 1%N) (tt_rank Bc) & forall i, inb s i -> den (TT Bc) i = nth 0 (ndata bmat) (nth 0%N i 0)].
Proof.
pose os m := [seq nones R [:: 1; q; 1]%N | q <- nseq m k].
have L m : [/\ links 1 (os m) 1, [seq dim C 1 | C <- os m] = nseq m k, all (fun r => r == 1%N) [seq dim C 0 | C <- os m] &
    forall i, inb (nseq m k) i -> chain (os m) i 0 0 = 1].
  rewrite /os; elim: m => [|m [l1 l2 l3 l4]]; first by split=> // -[|].
  split=> /=.
  - by apply/and3P; split=> //; exact: nwf_tab.
  - by rewrite l2.
  - by rewrite l3.
  - by case=> [|q i] //= /andP[hq hi]; rewrite /dim /= big_nat1 l4 // mulr1 get_tab //= hq.
have [l1 l2 l3 l4] := L d.-1; split.
- rewrite /wf_tt /Bc /=; apply/and3P; split=> //.
  by rewrite /nwf /= (eqP wb) eb !muln1 mul1n.
- by change (n :: [seq dim C 1 | C <- os d.-1] = n :: nseq d.-1 k); rewrite l2.
- exact: l3.
- case=> [|q i] //= /andP[hq hi]; rewrite /dim /= big_nat1 -/(os d.-1) l4 // mulr1 /get /=.
  by rewrite !muln1 mul0n !addn0.
Qed.

(* what prepare_cookie_problem returns *)
Theorem C61_prepare : or_linalg (prepare_cookie_problem qr As bmat k) (fun r => let: (A, B, p) := r in
  [/\ [/\ m_in A = s, m_out A = s, size (m_maps A) = d & forall f, List.In f (m_maps A) -> map_ok qr f s s],
      (* the operator, with the transposed matrices *)
      forall x j, inb s j -> maps_act (m_maps A) s x j =
        \sum_(0 <= mu < d) cookie_weight k mu j * \sum_(0 <= l < n) transposed_entry (nth d0 As mu) (nth 0%N j 0) l * x (upd j 0 l),
      (* the right hand side: b along mode 0, constant in the other modes *)
      (wf_tt B /\ tt_rank B = nseq d.-1 1%N) /\
      exists y, [/\ to_numpy (TT B) = Ok y, nshape y = s & forall i, inb s i -> get y i = nth 0 (ndata bmat) (nth 0%N i 0)],
      (* the preconditioner, with the matrices as they are: A_0 + 5 (A_1 + A_2 + ...) *)
      [/\ p_mode p = 0%N, p_shape p = s, is_mat (p_A p) n n & forall i j, (i < n)%N -> (j < n)%N -> get (p_A p) [:: i; j] =
        get (nth d0 As 0) [:: i; j] + (if k == 1%N then 0 else 5%:R) * \sum_(1 <= mu < d) get (nth d0 As mu) [:: i; j]] &
      map_ok qr (MapPre p) s s]).
Proof.
rewrite (prepareE k hA dpos qr wb eb); have [hP gP] := prec_matP k hA dpos.
case E: (precond_new qr _ _ _) => [p|e]; last first.
  by move: E; rewrite /precond_new; have := qrP.1 _ _ _ hP; case: (qr _) => //= e' -> [<-].
have := E; rewrite {1}/precond_new; case: (qr _) => //= QR [ep].
have [wB sB rB gB] := BP; have [y ey [wy sy gy]] := to_numpyE (wB : wf (TT Bc)).
split.
- by split=> //; rewrite /ck_maps size_map size_iota.
- move=> x j hj; rewrite /maps_act /ck_maps big_map; rewrite /index_iota subn0 big_seq [RHS]big_seq; apply: eq_bigr => mu.
  by rewrite mem_iota => /andP[_ hmu]; exact: actE.
- split; last by exists y; split=> //; [rewrite sy|move=> i hi; rewrite gy ?gB // sB].
  split=> //; apply: (@eq_from_nth _ 0%N); first by rewrite /tt_rank /Bc /= !size_map !size_nseq.
  move=> i hi; rewrite nth_nseq; move/(all_nthP 0%N): rB => /(_ i hi)/eqP ->; case: ltnP => // h.
  by move: hi; rewrite /tt_rank /Bc /= !size_map size_nseq ltnNge h.
- rewrite -ep /=; split=> // i j hi hj; rewrite gP // big_ltn // {1}/cookie_coeffs eqxx /= mean_ones.
    rewrite mul1r; congr (_ + _); rewrite big_distrr /=; apply: eq_big_nat => mu /andP[hmu _].
    by rewrite /cookie_coeffs (_ : (mu == 0%N) = false) ?mean_linspace //; clear -hmu; lia.
  by rewrite /dim (hA dpos).2.
- by move: E; rewrite -ep; split.
Qed.

(* hence everything proved about tt_sum_gmres (C45) applies to the cookie problem: its hypothesis
   [gmres_valid] holds for at least two matrices *)
Theorem C61_gmres_valid A B p max_rank final_rank m mf rkf : prepare_cookie_problem qr As bmat k = Ok (A, B, p) -> (1 < d)%N ->
  (exists2 rk, process_tt_rank max_rank s false = Ok rk & allpos rk) ->
  process_tt_rank (odflt max_rank final_rank) s false = Ok rkf /\ allpos rkf -> good_method m s -> good_method (final_method m mf) s ->
  gmres_valid qr (m_maps A) s B max_rank (Some p) final_rank None m mf rkf /\ A = MapSum (m_maps A) s s.
Proof.
move=> e d1 hr hrf hm hmf; have := C61_prepare; move: e; rewrite (prepareE k hA dpos qr wb eb).
case: (precond_new _ _ _ _) => //= p' [<- <- <-] -[[_ _ _ hok] _ [[wB rB] _] _ hp].
split=> //; have ps : allpos s.
  by rewrite /cookie_shape /= n0; apply/allP => q /nseqP[-> _].
split=> //; first by rewrite sizes.
- split=> //; first by rewrite /nilp /ck_maps size_map size_iota -lt0n.
  by move=> ms; rewrite /ck_maps; elim: (iota 0 d) => //= a l IH [|].
- split=> //; first by case: BP.
  by rewrite [tt_rank _]rB; apply/allP => q /nseqP[-> _].
Qed.

(* the entries of the averaged matrix used by the preconditioner are those of the operator on the
   central slice of the grid (all parameters 5, for an odd number of coefficients 2 h + 1), up to
   transposition; there, the preconditioned operator is the identity if and only if the averaged
   matrix is symmetric *)
Theorem C61_centre A B p h : prepare_cookie_problem qr As bmat k = Ok (A, B, p) -> k = (2 * h).+1 -> amat (p_A p) n n \in unitmx ->
  (forall x j, inb s j -> behead j = nseq d.-1 h -> op_act (m_maps A) (Some p) s x j = x j) <->
  (forall i j, (i < n)%N -> (j < n)%N -> get (p_A p) [:: i; j] = get (p_A p) [:: j; i]).
Proof.
move=> e ek up; have := C61_prepare; rewrite e => -[_ hmaps _ [pm _ hP gP] _].
have cen x j : inb s j -> behead j = nseq d.-1 h -> maps_act (m_maps A) s x j = \sum_(0 <= l < n) get (p_A p) [:: l; nth 0%N j 0] * x (upd j 0 l).
  move=> hj cj; rewrite hmaps //; have hj0 : (nth 0 j 0 < n)%N by have := nth_inb hj (isT : (0 < size s)%N).
  under eq_bigr => mu _ do rewrite big_distrr /=.
  rewrite exchange_big /=; apply: eq_big_nat => l /andP[_ hl].
  rewrite gP // mulrDl big_ltn // /cookie_weight eqxx mul1r; congr (_ + _).
  rewrite big_distrr big_distrl /=; apply: eq_big_nat => mu /andP[hm hmu]; rewrite (_ : (mu == 0%N) = false); last by clear -hm; lia.
  rewrite mulrA; congr (_ * _ * _).
  have -> : nth 0%N j mu = h.
    by case: (mu) hm hmu => // mu' _ hmu; rewrite -nth_behead cj nth_nseq (_ : (mu' < d.-1)%N) //; clear -hmu; lia.
  rewrite ek eqSS /= muln_eq0 /=; have [->|h0] := eqVneq h 0%N; first by rewrite mul0r.
  have h2 : (2 * h)%:R != 0 :> R by rewrite pnatr_eq0 muln_eq0.
  by apply: (mulIf h2); rewrite mulrA divfK // -!natrM; congr (_ %:R); clear; lia.
have opE x j : op_act (m_maps A) (Some p) s x j = mode_mul (invmx (amat (p_A p) n n)) 0 (maps_act (m_maps A) s x) j.
  by rewrite /op_act /pre_act /map_act pm.
have inbc a : (a < n)%N -> inb s (a :: nseq d.-1 h) .
  move=> ha; rewrite /cookie_shape /= ha /=; have : (h < k)%N by rewrite ek; clear; lia.
  by elim: (d.-1) => //= q IH hk; rewrite hk IH.
pose P := amat (p_A p) n n.
have Pact x j : inb s j -> mode_mul P 0 x j = \sum_(0 <= l < n) get (p_A p) [:: nth 0%N j 0; l] * x (upd j 0 l).
  move=> hj; rewrite /mode_mul big_mkord; have hj0 := nth_inb hj (isT : (0 < size s)%N); apply: eq_bigr => l _; congr (_ * _).
  by case: insubP => [q _ eq|]; [rewrite mxE eq|rewrite hj0].
split=> [H a b ha hb|H x j hj cj].
  pose x (i : seq nat) : R := (i == b :: nseq d.-1 h)%:R; pose j := a :: nseq d.-1 h.
  have hj : inb s j := inbc a ha; have us l : upd j 0 l = l :: nseq d.-1 h by rewrite /upd /= drop0.
  have e1 : mode_mul P 0 x j = maps_act (m_maps A) s x j.
    transitivity (mode_mul P 0 (mode_mul (invmx P) 0 (maps_act (m_maps A) s x)) j).
      by apply: eq_bigr => l _; congr (_ * _); rewrite us -opE H // inbc.
    by rewrite (mode_mul_comp _ _ _ hj) // mulmxV // (mode_mul1 _ hj).
  have del F : \sum_(0 <= l < n) F l * x (upd j 0 l) = F b.
    under eq_bigr => l _ do rewrite us /x eqseq_cons eqxx andbT mulrC.
    by rewrite (sum_nat_delta F hb).
  by move: e1; rewrite Pact // cen // !del /j /= => ->.
rewrite opE; transitivity (mode_mul (invmx P) 0 (mode_mul P 0 x) j).
  apply: eq_bigr => l _; congr (_ * _); have hl : inb s (upd j 0 l) by apply: inb_upd.
  have j0 : (0 < size j)%N by rewrite (size_inb hj).
  rewrite cen //; last by rewrite -cj; case: (j) j0 => //= ? ? _; rewrite /upd /= drop0.
  rewrite Pact // nth_upd //; apply: eq_big_nat => q /andP[_ hq]; by rewrite H.
by rewrite (mode_mul_comp _ _ _ hj) // mulVmx // (mode_mul1 _ hj).
Qed.

End Prep.
End P.

Section Ex.
Variable R : rcfType.
Notation arr := (nd R).
(* [[1, c], [0, 1]], the identity, and b = (1, 2); three coefficients 0, 5, 10 *)
Definition ck_A (c : R) : seq arr := [:: tab [:: 2; 2]%N (fun i => if nth 0%N i 0 == nth 0%N i 1 then 1 else if nth 0%N i 0 == 0%N then c else 0); eye R 2].
Definition ck_b : arr := Nd [:: 2; 1]%N [:: 1; 2%:R].
Lemma ck_args c : cookie_args (ck_A c) ck_b 2 3.
Proof. by split=> // -[|[|//]] _; split. Qed.

Lemma ck_run c : exists A B p, [/\ prepare_cookie_problem (@qr0 R) (ck_A c) ck_b 3 = Ok (A, B, p),
  amat (p_A p) 2 2 \in unitmx & (forall i j, (i < 2)%N -> (j < 2)%N -> get (p_A p) [:: i; j] = get (p_A p) [:: j; i]) <-> c = 0].
Proof.
have hp := C61_prepare (ck_args c) (@qr0P R).
have [|[[A B] p] e [_ _ _ [pm _ hP gP] _]] := or_total _ hp.
  by rewrite /prepare_cookie_problem /precond_new; nl; exact: nl_qr0.
exists A, B, p; split=> //.
  rewrite upper_unit //.
    apply/allP => i; rewrite mem_iota => /andP[_ hi]; rewrite gP // big_nat1.
    by case: i hi => [|[|//]] _; rewrite /get /= mulr1 -(natrD _ 1 5) pnatr_eq0.
  move=> i j hij hj; have [-> ->] : i = 1%N /\ j = 0%N by clear -hij hj; lia.
  by rewrite gP // big_nat1 /get /= mulr0 addr0.
have ent i j : (i < 2)%N -> (j < 2)%N -> get (p_A p) [:: i; j] = if i == j then 6%:R else if i == 0%N then c else 0.
  move=> hi hj; rewrite gP // big_nat1.
  by case: i j hi hj => [|[|//]] [|[|//]] _ _; rewrite /get /= ?mulr1 ?mulr0 ?addr0 // -(natrD _ 1 5).
split=> [h|c0 i j hi hj]; first by have := h 0%N 1%N isT isT; rewrite !ent.
by rewrite !ent // c0; case: i j hi hj => [|[|//]] [|[|//]].
Qed.

(* the preconditioner is meant to be the average of the operator, so a user expects the preconditioned
   operator to be the identity where all parameters have their average value; false for matrices that
   are not symmetric *)
Theorem C61_centre_refuted : exists (As : seq arr) b n k h A B p, [/\ cookie_args As b n k,
  prepare_cookie_problem (@qr0 R) As b k = Ok (A, B, p), k = (2 * h).+1, amat (p_A p) n n \in unitmx &
  ~ forall x j, inb (cookie_shape As n k) j -> behead j = nseq (size As).-1 h ->
    op_act (m_maps A) (Some p) (cookie_shape As n k) x j = x j].
Proof.
have [A [B [p [e u hs]]]] := ck_run 1.
exists (ck_A 1), ck_b, 2%N, 3%N, 1%N, A, B, p; split=> //; first exact: ck_args.
move/(C61_centre (ck_args 1) (@qr0P R) e (erefl : 3%N = (2 * 1).+1) u) => /hs /eqP; by rewrite oner_eq0.
Qed.

(* and true for the symmetric ones; GMRES can be called *)
Example C61_ex_run : exists A B p, [/\ prepare_cookie_problem (@qr0 R) (ck_A 0) ck_b 3 = Ok (A, B, p),
  forall x j, inb [:: 2; 3]%N j -> behead j = [:: 1%N] -> op_act (m_maps A) (Some p) [:: 2; 3]%N x j = x j &
  gmres_valid (@qr0 R) (m_maps A) [:: 2; 3]%N B (RInt 2) (Some p) None None RExact RNone [:: 2]%N].
Proof.
have [A [B [p [e u hs]]]] := ck_run 0; exists A, B, p; split=> //.
  by apply/(C61_centre (ck_args 0) (@qr0P R) e (erefl : 3%N = (2 * 1).+1) u); apply/hs.
have hr : exists2 rk, process_tt_rank (RInt 2) (cookie_shape (ck_A 0) 2 3) false = Ok rk & all (fun n => 0 < n)%N rk by exists [:: 2]%N.
by have [] := @C61_gmres_valid R _ _ _ _ _ (ck_args 0) (@qr0P R) A B p (RInt 2) None RExact RNone [:: 2]%N e isT hr (conj erefl isT) I I.
Qed.

Example C61_ex_user : exists (call : seq arr -> res (seq arr)) act, linear_on [:: 2]%N [:: 2]%N act /\ computes call [:: 2]%N [:: 2]%N act.
Proof.
exists (fun cs => Ok cs), (fun x => x); split; first by split=> // x y j h hj; exact: h.
by move=> cs w e; exists cs.
Qed.
End Ex.

Print Assumptions C61_user_map.
Print Assumptions C61_cookie_call.
Print Assumptions C61_prepare.
Print Assumptions C61_gmres_valid.
Print Assumptions C61_centre.
Print Assumptions C61_centre_refuted.
