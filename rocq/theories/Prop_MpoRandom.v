(* C51 for MPO.random. *)
From mathcomp Require Import all_ssreflect all_algebra.
From mathcomp.zify Require Import zify.
From Verif Require Import Py Nd NdThy Utils UtilsNum Tensor TensorNum Spec LinSpec ChainThy TensorThy2 Ein NormThy RoundThy2 Mpo MpoSpec MpoThy Prop_Mpo Prop_Random MpoRandom.
Set Implicit Arguments. Unset Strict Implicit. Unset Printing Implicit Defensive.
Import Order.POrderTheory GRing.Theory Num.Theory.
Local Open Scope ring_scope.

Section Thms.
Variable R : rcfType.
Variable normal : nat -> seq nat -> nd R.
(* np.random.normal(size=shape) returns an array of that shape *)
Hypothesis normalP : forall k s, nwf (normal k s) /\ nshape (normal k s) = s.
Notation arr := (nd R).

(* the square of the Frobenius norm *)
Definition frob2 (M : arr) : R := sum_idx (nshape M) (fun i => get M i ^+ 2).

Lemma coreP (C : arr) (a b c e : nat) : nwf C -> nshape C = [:: a; b; c; e] ->
  match mpo_random_core C with
  | Ok M => [/\ nwf M, nshape M = [:: a; b; c; e], frob2 M = (b * c)%:R &
              b = c -> forall x y z w, (x < a)%N -> (y < b)%N -> (z < b)%N -> (w < e)%N ->
                get M [:: x; y; z; w] = get M [:: x; z; y; w]]
  | Err er => er = ZeroDivisionError /\ (b = c -> forall x y z w, (x < a)%N -> (y < b)%N -> (z < b)%N -> (w < e)%N ->
                get C [:: x; y; z; w] = - get C [:: x; z; y; w])
  end.
Proof.
move=> wC sC; rewrite /mpo_random_core (transpose4 sC) [bind (Ok _) _]/=.
set Ct := tab4 a c b e _.
have wT : nwf Ct by rewrite /Ct nwf_tab.
have pS : prods (nshape C) = prods (nshape Ct) by rewrite sC /prods /=; lia.
rewrite (reshapeE pS) [bind (Ok _) _]/= iaddE // [bind (Ok _) _]/=.
set Cs := tab (nshape C) _; have wS : nwf Cs by rewrite nwf_tab.
have sS : nshape Cs = [:: a; b; c; e] by rewrite /Cs /= sC.
have sym : b = c -> forall x y z w, (x < a)%N -> (y < b)%N -> (z < b)%N -> (w < e)%N ->
   get Cs [:: x; y; z; w] = get C [:: x; y; z; w] + get C [:: x; z; y; w].
  move=> bc x y z w hx hy hz hw; rewrite /Cs get_tab; last by rewrite sC /=; lia.
  congr (_ + _); rewrite (_ : Nd _ _ = Ct); last by rewrite sC -bc /Ct /tab4 /tab /= -bc.
  by rewrite /Ct /tab4 get_tab //= ?hx ?hy ?hz ?hw -?bc ?hy.
case: eqP => [n0|/eqP n0].
  split=> // bc x y z w hx hy hz hw; apply/eqP; rewrite -addr_eq0 -(sym bc) //.
  move/eqP: n0; rewrite /nnorm sqrtr_eq0 (sqnormE wS) => h.
  have {}h : sum_idx (nshape Cs) (fun i => get Cs i ^+ 2) = 0.
    by apply/eqP; rewrite eq_le h sum_idx_ge0 // => i; rewrite sqr_ge0.
  have hi : inb (nshape Cs) [:: x; y; z; w] by rewrite sS /= hx hy hw -bc hz.
  by move/eqP: (sum_idx_eq0 (fun i => sqr_ge0 (get Cs i)) h hi); rewrite expf_eq0.
have n2 : nnorm Cs ^+ 2 = frob2 Cs.
  rewrite /nnorm sqr_sqrtr (sqnormE wS) // sum_idx_ge0 // => i; rewrite sqr_ge0 //.
split.
- by rewrite nwf_tab.
- by rewrite /nmap /= sC.
- rewrite /frob2 {1}/nmap [nshape (tab _ _)]/=.
  transitivity (sum_idx (nshape Cs) (fun i => get Cs i ^+ 2 * ((b * c)%:R / nnorm Cs ^+ 2))).
    apply: eq_sum_idx => i hi; rewrite get_tab // /dim sC /= !exprMn exprVn sqr_sqrtr ?ler0n // mulrA //.
  by rewrite sum_idxZr -/(frob2 Cs) -n2 mulrC mulfVK // expf_eq0.
- have gM f i : inb (nshape Cs) i -> get (nmap f Cs) i = f (get Cs i) by move=> hi; rewrite /nmap get_tab.
  move=> bc x y z w hx hy hz hw; rewrite !gM ?sS /= ?hx ?hy ?hz ?hw -?bc ?hy ?hz //.
  by rewrite !sym // [get C [:: x; z; y; w] + _]addrC.
Qed.

Notation draw_core := (fun p : nat * ((nat * nat) * (nat * nat)) =>
      let: (k, ((r1, s1), (s2, r2))) := p in mpo_random_core (normal k [:: r1; s1; s2; r2])).

(* the k-th draw is antisymmetric in its two mode indices *)
Definition antisym (k a b e : nat) := let C := normal k [:: a; b; b; e] in
  forall x y z w, (x < a)%N -> (y < b)%N -> (z < b)%N -> (w < e)%N ->
    get C [:: x; y; z; w] = - get C [:: x; z; y; w].

Lemma loopP (k0 a : nat) (rs ins outs : seq nat) : size ins = size rs -> size outs = size rs ->
  match mapM draw_core (zip (iota k0 (size ins)) (zip (zip (a :: rs) ins) (zip outs rs))) with
  | Ok ms => [/\ mlinks a ms (last a rs), mpo_in ms = ins /\ mpo_out ms = outs, [seq dim M 0 | M <- ms] = belast a rs,
      forall k, (k < size ins)%N -> frob2 (nth (Nd [::] [::]) ms k) = (nth 0%N ins k * nth 0%N outs k)%:R &
      ins = outs -> [seq mflip M | M <- ms] = ms]
  | Err er => er = ZeroDivisionError /\ (ins = outs -> exists2 j, (j < size ins)%N &
      antisym (k0 + j) (nth 0 (a :: rs) j) (nth 0 ins j) (nth 0 rs j))%N
  end.
Proof.
elim: rs k0 a ins outs => [|r rs IH] k0 a [|n ins] [|m outs] //= [si] [so].
have [w sh] := normalP k0 [:: a; n; m; r]; have := coreP w sh.
case: (mpo_random_core _) => [M|er] /=; last first.
  case=> -> H; split=> // -[e _]; exists 0%N => //.
  by rewrite addn0 /antisym /=; move: (H e); rewrite -e.
move=> [wM sM fM sy]; have := IH k0.+1 r ins outs si so.
have d0 : dim M 0 = a by rewrite /dim sM.
have d1 : dim M 1 = n by rewrite /dim sM.
have d2 : dim M 2 = m by rewrite /dim sM.
have d3 : dim M 3 = r by rewrite /dim sM.
case: (mapM _ _) => [ms|er] /=; last first.
  case=> -> H; split=> // -[_ /H[j hj ha]]; exists j.+1 => //.
  by rewrite addnS -addSn.
move=> [L [h1 h2] h3 h4 h5]; split.
- by rewrite wM d1 d2 d3 sM eqxx.
- by rewrite /mpo_in /mpo_out /= d1 d2 -/(mpo_in ms) -/(mpo_out ms) h1 h2.
- by rewrite d0 h3; case: (rs).
- by case=> //= k; apply: h4.
- case=> e /h5->; congr (_ :: _); apply: nd_ext => //; first by rewrite nwf_tab.
    by rewrite sM /mflip /= d0 d1 d2 d3 e.
  move=> x; rewrite {1}/mflip [nshape _]/= d0 d1 d2 d3 => /inb4P[i [j [k [l [-> hi hj hk hl]]]]].
  rewrite /mflip /tab4 get_tab; last by rewrite /= d0 d1 d2 d3 hi hj hk hl.
  by rewrite /= sy // ?e.
Qed.

Notation prod_shape ins outs := [seq (p.1 * p.2)%N | p <- zip ins outs].

Lemma mpo_randomP rank ins outs rk : size ins = size outs ->
  process_tt_rank rank (prod_shape ins outs) true = Ok rk ->
  match mpo_random normal rank ins outs with
  | Ok ms => [/\ wf_mpo ms, mpo_in ms = ins /\ mpo_out ms = outs, mpo_rank ms = rk,
      forall k, (k < size ins)%N -> frob2 (nth (Nd [::] [::]) ms k) = (nth 0%N ins k * nth 0%N outs k)%:R &
      ins = outs -> mpo_T ms = Ok ms]
  | Err er => er = ZeroDivisionError /\ (ins = outs -> exists2 k, (k < size ins)%N &
      antisym k (nth 0 (1 :: rk) k) (nth 0 ins k) (nth 0 (rcons rk 1) k))%N
  end.
Proof.
move=> so E; rewrite /mpo_random E [bind _ _]/=; have [] := process_size_gen E.
rewrite size_map size1_zip ?so // => s0 srk.
rewrite -so in s0 srk *.
have z1 : zip (1%N :: rk) ins = zip (1%N :: (rk ++ [:: 1%N])) ins.
  rewrite -cat_cons -{2}(cats0 ins) zip_cat ?cats0 //= ?srk ?prednK //.
have := @loopP 0 1 (rk ++ [:: 1%N]) ins outs _ _; rewrite size_cat srk addn1 prednK // -so -z1 => /(_ erefl erefl).
case: (mapM _ _) => [ms|er]; last first.
  case=> -> H; split=> // /H[k hk]; rewrite add0n => ha; exists k => //.
  move: ha; rewrite -cats1 -cat_cons nth_cat /= srk prednK //.
  by rewrite hk.
move=> [L [h1 h2] h3 h4 h5].
have lm : mlinks 1 ms 1 by move: L; rewrite last_cat.
split=> //.
- by rewrite /wf_mpo lm andbT; move: s0; rewrite -h1 size_map; case: (ms).
- by rewrite /mpo_rank -behead_map h3; case: (rk) => //= r l; rewrite cats1 belast_rcons.
- by move=> /h5 e; have [] := mpo_TE lm; rewrite e.
Qed.

(* MPO.random(rank, in_shape, out_shape): an MPO of these shapes, with the trimmed rank, whose
   k-th core has squared norm in_shape[k] * out_shape[k]; or a division by zero.  *)
Theorem C51_mpo_random rank ins outs rk : size ins = size outs ->
  process_tt_rank rank (prod_shape ins outs) true = Ok rk ->
  match mpo_random normal rank ins outs with
  | Ok ms => [/\ wf_mpo ms, mpo_in ms = ins, mpo_out ms = outs, mpo_rank ms = rk &
      forall k, (k < size ins)%N -> frob2 (nth (Nd [::] [::]) ms k) = (nth 0%N ins k * nth 0%N outs k)%:R]
  | Err er => er = ZeroDivisionError
  end.
Proof. by move=> so E; have := mpo_randomP so E; case: (mpo_random _ _ _ _) => [ms|er]; case=> // w [h1 h2] h3 h4 _. Qed.

(* With in_shape = out_shape the MPO is symmetric: its transpose is itself, cores and all, its
   matrix is symmetric and <A x, y> = <x, A y>.  The division by zero can only happen when one
   of the drawn cores is antisymmetric in its two mode indices. *)
Theorem C51_mpo_random_symmetric rank shape rk : process_tt_rank rank (prod_shape shape shape) true = Ok rk ->
  match mpo_random normal rank shape shape with
  | Ok ms => [/\ mpo_T ms = Ok ms,
      exists2 A, mpo_to_numpy ms = Ok A &
        forall i j, inb shape i -> inb shape j -> get A (weave i j) = get A (weave j i) &
      forall xs ys, wf_tt xs -> wf_tt ys -> tshape (TT xs) = shape -> tshape (TT ys) = shape ->
        exists Ax Ay v, [/\ mpo_call ms xs = Ok Ax, mpo_call ms ys = Ok Ay,
          tt_dot Ax ys = Ok v & tt_dot xs Ay = Ok v]]
  | Err er => er = ZeroDivisionError /\ exists2 k, (k < size shape)%N &
      let r := nth 0%N (1%N :: rk) k in let n := nth 0%N shape k in let r' := nth 0%N (rcons rk 1%N) k in
      let C := normal k [:: r; n; n; r'] in
      forall x y z w, (x < r)%N -> (y < n)%N -> (z < n)%N -> (w < r')%N ->
        get C [:: x; y; z; w] = - get C [:: x; z; y; w]
  end.
Proof.
move=> E; have := mpo_randomP erefl E; case: (mpo_random _ _ _ _) => [ms|er]; last first.
  by case=> -> /(_ erefl)[k hk H]; split=> //; exists k.
case=> w [h1 h2] h3 h4 /(_ erefl) hT; split=> //.
  have [mt [A [B [e _ eA eB g]]]] := C40_transpose w.
  move: e eB; rewrite hT => -[<-]; rewrite eA => -[eAB]; exists A => // i j hi hj.
  by rewrite {1}eAB; apply: g; rewrite ?h1 ?h2.
by move=> xs ys wx wy sx sy; apply: C40_adjoint => //; rewrite ?h1 ?h2.
Qed.
End Thms.
Print Assumptions C51_mpo_random.
Print Assumptions C51_mpo_random_symmetric.

(* a generator that meets the hypothesis, and a draw for which an MPO is produced *)
Example C51_mpo_random_nonvacuous (R : rcfType) :
  let normal := fun (k : nat) s => tab s (fun i : seq nat => (1 : R)) in
  (forall k s, nwf (normal k s) /\ nshape (normal k s) = s) /\
  exists ms, mpo_random normal (RInt 2) [:: 2; 3; 2]%N [:: 2; 3; 2]%N = Ok ms.
Proof.
move=> normal; have hn : forall k s, nwf (normal k s) /\ nshape (normal k s) = s.
  by move=> k s; rewrite nwf_tab.
split=> //; have E : process_tt_rank (RInt 2) [seq (p.1 * p.2)%N | p <- zip [:: 2; 3; 2]%N [:: 2; 3; 2]%N] true = Ok [:: 2; 2]%N.
  by vm_compute.
have := C51_mpo_random_symmetric hn E; case: (mpo_random _ _ _ _) => [ms _|er]; first by exists ms.
case=> _ [k hk H]; exfalso; suff : (1 : R) = -1 by move/eqP; rewrite -addr_eq0 (_ : 1 + 1 = 2%:R) ?pnatr_eq0.
have p r n r' : (0 < r)%N -> (0 < n)%N -> (0 < r')%N -> get (normal k [:: r; n; n; r']) [:: 0; 0; 0; 0]%N = 1.
  by move=> h1 h2 h3; rewrite /normal get_tab //= h1 h2 h3.
have {}H := H 0%N 0%N 0%N 0%N; case: k hk H p => [|[|[|k]]] // _ H p; rewrite /= in H;
  by move: (H isT isT isT isT); rewrite p.
Qed.
