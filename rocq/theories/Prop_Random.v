(* Property C51: the constructors of random tensors, and the assumption [tt_random_ok] of the
   theorems about sketches, proved for the code. *)
From Coq Require Import String Ascii NArith.
From mathcomp Require Import all_ssreflect all_algebra.
From mathcomp Require Import zify.
From Verif Require Import Py Nd Utils Tensor Rng Random Spec LinSpec RecSpec SkSpec.
From Verif Require Import NdThy Ein TensorThy SweepThy SkThy2 SkThy6 SkThy9 SkThy14 RecThy3 TrimThy.
From Verif Require Prop_Orth.
Set Implicit Arguments. Unset Strict Implicit. Unset Printing Implicit Defensive.
Import GRing.Theory Num.Theory.
Local Open Scope ring_scope.

(* trimming keeps the number of ranks, for any sizes and ranks (also zero) *)
Lemma trim_size_gen (s rk : seq nat) : (0 < size s)%N -> size rk = (size s).-1 -> size (trim_ranks s rk) = (size s).-1.
Proof.
move=> s0 sr; rewrite /trim_ranks; set r := 1%N :: _.
have er : size r = (size s).+1 by rewrite /r /= size_cat size_trim_init sr /=; clear -s0; lia.
suff h : size (trim_loop 100 s r) = (size s).+1.
  rewrite size_behead size_take h /=; case: ifP => //; clear; lia.
move: er; elim: 100%N r => [|n IH] r er //=; case e: trim_sweep => [r' ch].
have e2 : size r' = (size s).+1.
  have -> : r' = (trim_sweep s r).1 by rewrite e.
  rewrite /trim_sweep; move: (false) => b.
  have : all (fun p => p.1 < size s)%N (zip (iota 0 (size s)) s).
    apply/allP => -[i n0] /= /(map_f fst); rewrite -/(unzip1 _) unzip1_zip ?size_iota //= mem_iota add0n.
    by case/andP.
  elim: (zip _ _) r b er {e IH} => [|[i n0] l IHl] r b er; first by [].
  move=> /andP[hi hl]; change (size (foldl trim_step (trim_step (r, b) (i, n0)) l).1 = (size s).+1).
  have {}hi : (i < size s)%N := hi.
  case es: (trim_step (r, b) (i, n0)) => [r2 b2]; apply: IHl hl.
  have -> : r2 = (trim_step (r, b) (i, n0)).1 by rewrite es.
  rewrite /trim_step; case: ifP => _; case: ifP => _; rewrite /= ?size_set_nth ?er //; clear -hi; lia.
by case: ch {e} => //; apply: IH.
Qed.
Lemma process_size_gen rank shape trim rk : process_tt_rank rank shape trim = Ok rk ->
  (0 < size shape)%N /\ size rk = (size shape).-1.
Proof.
rewrite /process_tt_rank; case: (posnP (size shape)) => [->|s0] //=; case: (size shape =P 0%N) => [e0|_]; first by clear -e0 s0; lia.
case: eqP => // e [<-]; split=> //; case: trim => //; exact: trim_size_gen.
Qed.

Section Random.
Variable R : rcfType.
Notation arr := (nd R).
Variable gen : N -> nat -> nat -> R.
Variable threads : nat.
Variable state : N -> nat -> N.
Variable qr : arr -> res (arr * arr).
Variable choice : N -> nat -> nat -> res (seq nat).
Notation tt_random := (tt_random gen threads state qr).
Notation C0 := (C0 R).

(* rank_augmented *)
Notation aug rk := (1%N :: rk ++ [:: 1%N]).
Definition known_goal (g : string) : Prop := g = "norm-1"%string \/ g = "norm-preserve"%string.

Lemma rn_nwf s seed : nwf (random_normal gen threads s seed).
Proof. by rewrite /nwf /= size_map size_iota. Qed.
Lemma ds_mat (A : arr) m n k : is_mat A m n -> is_mat (div_sqrt A k) m n.
Proof. by case=> w e; split=> //; rewrite /nwf /= size_map; exact: w. Qed.
Lemma rn_mat m n seed : is_mat (random_normal gen threads [:: m; n] seed) m n.
Proof. by split=> //; exact: rn_nwf. Qed.

(* a list of cores of the right shapes is a train of the given shape and rank *)
Lemma train_of (s rk : seq nat) cs : (0 < size s)%N -> size rk = (size s).-1 -> size cs = size s ->
  (forall mu, (mu < size s)%N -> nwf (nth C0 cs mu) /\
     nshape (nth C0 cs mu) = [:: nth 0%N (aug rk) mu; nth 0%N s mu; nth 0%N (aug rk) mu.+1]) ->
  [/\ wf_tt cs, tshape (TT cs) = s & tt_rank cs = rk]%N.
Proof.
move=> s0 sr sc H; have n0 : (0 < size cs)%N by rewrite sc.
have d1 mu : (mu < size s)%N -> dim (nth C0 cs mu) 1 = nth 0%N s mu by move=> /H[_]; rewrite /dim => ->.
split.
- rewrite /wf_tt; case: cs n0 sc H d1 => // C cs _ sc H d1; rewrite /=.
  have e1 : nth 0%N (aug rk) (size s) = 1%N.
    by move: sr s0; case: (size s) => // d /= <- _; rewrite nth_cat ltnn subnn.
  rewrite -[X in links _ _ X]e1.
  apply: (@links_seq R (fun mu => nth 0%N (aug rk) mu) (C :: cs) (size s) sc) => mu hm.
  by rewrite (d1 _ hm); apply: H.
- apply: (@eq_from_nth _ 0%N); rewrite /tshape size_map sc // => mu hm.
  by rewrite (nth_map C0) ?sc // d1.
apply: (@eq_from_nth _ 0%N); rewrite /tt_rank size_map size_behead sc ?sr // => mu hm.
have hm1 : (mu.+1 < size s)%N by clear -hm; lia.
rewrite (nth_map C0) ?size_behead ?sc // nth_behead.
have [_ e] := H _ hm1; by rewrite /dim e /= nth_cat sr hm.
Qed.

(* one core *)
Lemma core_plain goal d s ra seed mu : known_goal goal ->
  exists2 C, tt_random_core gen threads state qr false goal d s ra seed mu = Ok C &
    nwf C /\ nshape C = [:: nth 0%N ra mu; nth 0%N s mu; nth 0%N ra mu.+1].
Proof.
move=> hg; rewrite /tt_random_core andFb; set A := random_normal _ _ _ _.
have mA k := ds_mat k (rn_mat (nth 0%N ra mu * nth 0%N s mu) (nth 0%N ra mu.+1) (state seed mu)).
case: hg => ->.
  by have [C h [w e _]] := foldL (mA (nth 0%N ra mu * nth 0%N s mu)%N); exists C.
by have [C h [w e _]] := foldL (mA (nth 0%N ra mu)); exists C.
Qed.
Lemma core_orth goal d s ra seed mu : qr_contract qr -> known_goal goal \/ (mu < d.-1)%N ->
  (nth 0%N ra mu.+1 <= nth 0%N ra mu * nth 0%N s mu)%N || (d.-1 <= mu)%N ->
  or_linalg (tt_random_core gen threads state qr true goal d s ra seed mu) (fun C =>
    [/\ nwf C, nshape C = [:: nth 0%N ra mu; nth 0%N s mu; nth 0%N ra mu.+1] & (mu < d.-1)%N -> left_orth C]).
Proof.
move=> hq hg hf; rewrite /tt_random_core /=; case hm: (mu < d.-1)%N; last first.
  have {}hg : known_goal goal by case: hg => //; rewrite hm.
  have [C] := core_plain d s ra seed mu hg; rewrite /tt_random_core /= => -> [w e]; by split.
have mA := rn_mat (nth 0%N ra mu * nth 0%N s mu) (nth 0%N ra mu.+1) (state seed mu).
have emin : minn (nth 0%N ra mu * nth 0%N s mu) (nth 0%N ra mu.+1) = nth 0%N ra mu.+1.
  by apply/minn_idPr; case/orP: hf => // h; clear -h hm; lia.
have := hq _ _ _ mA; rewrite emin => hQ.
pose P (Q : arr) := is_mat Q (nth 0%N ra mu * nth 0%N s mu) (nth 0%N ra mu.+1) /\ ocols Q (nth 0%N ra mu * nth 0%N s mu) (nth 0%N ra mu.+1).
apply: (@or_bind _ _ _ _ P).
  by apply: or_bind hQ _ => -[Q T] /= [h1 _ h3 _].
move=> Q [mQ oQ]; have [C -> [w e g]] := foldL mQ; split=> // _.
exact: ocols_left_orth oQ e g.
Qed.

(* ---- C51: TensorTrain.random ---- *)
(* For every shape, rank, seed and both norm goals the call succeeds; the result is a train of
   that shape whose rank is the requested one, trimmed if trim=True. *)
Theorem C51_tt_random shape rank rk seed trim goal : let t := if trim is Some b then b else false in
  known_goal goal ->
  process_tt_rank rank shape t = Ok rk ->
  exists2 cs, tt_random shape rank seed false trim goal = Ok cs &
    [/\ wf_tt cs, tshape (TT cs) = shape & tt_rank cs = rk].
Proof.
move=> t hg hp; have [s0 sr] := process_size_gen hp.
rewrite /Random.tt_random -/t hp /=.
have [cs -> [sc H]] := @mapM_iotaE R _ (size shape) _ (fun mu _ => core_plain (size shape) shape (aug rk) seed mu hg).
by exists cs => //; apply: train_of.
Qed.

(* orthog=True (with trim=None or True): trimmed ranks and left-orthonormal cores but the last.
   At most 102 modes: trim_ranks stops after 100 sweeps (C01). *)
Theorem C51_tt_random_orthog shape rank rk seed trim goal : qr_contract qr ->
  (if trim is Some b then b else true) -> known_goal goal ->
  process_tt_rank rank shape false = Ok rk -> (size shape <= 102)%N ->
  all (fun n => 0 < n)%N shape -> all (fun n => 0 < n)%N rk ->
  or_linalg (tt_random shape rank seed true trim goal) (fun cs =>
    [/\ wf_tt cs, tshape (TT cs) = shape, tt_rank cs = trim_ranks shape rk & all_but_last (@left_orth R) cs]).
Proof.
move=> hq ht hg hp h102 hs hk; have [s0 sr] := process_size_gen hp.
have [fe pk st] := Prop_Orth.trim_left_fits hs hk s0 sr h102.
rewrite /Random.tt_random.
have -> : (if trim is Some t then t else true) = true by case: trim ht => // b.
rewrite (process_trimE true hp) /=; set rk' := trim_ranks shape rk in fe pk st *.
pose Q mu (C : arr) := [/\ nwf C, nshape C = [:: nth 0%N (aug rk') mu; nth 0%N shape mu; nth 0%N (aug rk') mu.+1] & (mu < (size shape).-1)%N -> left_orth C].
apply: or_imp (@mapM_or nat arr 0%N C0 _ _ Q _) _.
  rewrite size_iota => mu hm; rewrite nth_iota // add0n; apply: core_orth => //; first by left.
  case: (leqP (size shape).-1 mu) => h; rewrite ?orbT ?orbF //; have := fe mu h.
  rewrite /= nth_cat st h; case: mu h {hm} => [|mu] h //=; rewrite nth_cat st.
  by have -> : (mu < (size shape).-1)%N by clear -h; lia.
rewrite size_iota => cs [sc H].
have [||||h1 h2 h3] := @train_of shape rk' cs => //; first by move=> mu /H[].
split=> // k hk1; have [|_ _] := H k; first by rewrite -sc; clear -hk1; lia.
by apply; rewrite -sc; clear -hk1; lia.
Qed.

(* the documented errors *)
Theorem C51_tt_random_errors shape rank seed goal :
  (* orthog without trim *)
  tt_random shape rank seed true (Some false) goal = Err ValueError /\
  (* a rank tuple of the wrong length *)
  (forall rs orthog trim, size rs <> (size shape).-1 ->
     tt_random shape (RTuple rs) seed orthog trim goal = Err ValueError) /\
  (* an unknown norm goal *)
  (forall trim, ~ known_goal goal -> tt_random shape rank seed false trim goal = Err ValueError).
Proof.
split=> //; split.
  move=> rs orthog trim /eqP/negbTE h; rewrite /Random.tt_random; case: (_ && _) => //.
  by rewrite /process_tt_rank h orbT.
move=> trim hg; rewrite /Random.tt_random /=; case hp: process_tt_rank => [rk|e] /=; last first.
  by move: hp; rewrite /process_tt_rank; case: ifP => // _ [<-].
have [s0 sr] := process_size_gen hp.
case: (size shape) s0 => // d _ /=; rewrite /tt_random_core /=.
case: String.eqb_spec => [e|_]; first by case: hg; left.
by case: String.eqb_spec => [e|_] //; case: hg; right.
Qed.

(* ---- CPTensor.random, TuckerTensor.random, SparseTensor.random, DenseTensor.random ---- *)
Theorem C51_cp_random shape rank seed : (0 < size shape)%N ->
  let cs := cp_random gen threads state shape rank seed in
  [/\ wf_cp cs, tshape (CP cs) = shape & all (fun C => dim C 1 == rank) cs].
Proof.
move=> s0 cs; have ecs : cs = [seq div_sqrt (random_normal gen threads [:: nth 0%N shape i; rank] (state seed i)) (nth 0%N shape i)
  | i <- iota 0 (size shape)] by [].
have ha : all (fun C => dim C 1 == rank) cs by rewrite ecs all_map; apply/allP => i _ /=; rewrite /dim /= eqxx.
split=> //; last first.
  rewrite /tshape ecs -map_comp; apply: (@eq_from_nth _ 0%N); rewrite size_map size_iota => // i hi.
  by rewrite (nth_map 0%N) ?size_iota // nth_iota.
have hh : dim (head (Nd [::] [::]) cs) 1 = rank by case: (cs) ecs ha => [|C l] //=; [case: (size shape) s0 | move=> _ /andP[/eqP]].
rewrite /wf_cp hh; apply/andP; split; first by rewrite /nilp ecs size_map size_iota -lt0n.
rewrite ecs all_map; apply/allP => i _ /=.
by have [-> _] := ds_mat (nth 0%N shape i) (rn_mat (nth 0%N shape i) rank (state seed i)); rewrite /dim /= eqxx.
Qed.

(* the rank is the requested one, cut off at the mode sizes; the factors have orthonormal rows *)
Theorem C51_tucker_random shape rank seed : qr_contract qr ->
  let rk := match rank with RTuple rs => rs | RInt r => nseq (size shape) r end in
  size rk = size shape ->
  or_linalg (tucker_random gen threads state qr shape rank seed) (fun fc =>
    [/\ wf_tucker fc.1 fc.2, tshape (Tucker fc.1 fc.2) = shape,
        [seq dim U 0 | U <- fc.1] = [seq minn p.1 p.2 | p <- zip rk shape] &
        forall k, (k < size shape)%N -> let U := nth C0 fc.1 k in orows U (dim U 0) (dim U 1)]).
Proof.
move=> hq rk sk; rewrite /tucker_random -/rk; set rk' := [seq minn p.1 p.2 | p <- zip rk shape].
have sk' : size rk' = size shape by rewrite size_map size_zip sk minnn.
have nk k : (k < size shape)%N -> nth 0%N rk' k = minn (nth 0%N rk k) (nth 0%N shape k).
  by move=> hk; rewrite (nth_map (0, 0)%N) ?size_zip ?sk ?minnn // nth_zip.
set sds := [seq state seed k | k <- iota 0 (size shape)].
have ss : size sds = size shape by rewrite size_map size_iota.
have sz : size (zip shape sds) = size shape by rewrite size_zip ss minnn.
pose Q k (U : arr) := is_mat U (nth 0%N rk' k) (nth 0%N shape k) /\ orows U (nth 0%N rk' k) (nth 0%N shape k).
apply: or_bind (@mapM_or (nat * (nat * N)) arr (0%N, (0%N, N0)) C0 _ _ Q _) _.
  rewrite size_zip sk' sz minnn => k hk; rewrite nth_zip ?sk' ?sz // nth_zip ?ss //=.
  set r := nth 0%N rk' k; set n := nth 0%N shape k.
  have rn : (r <= n)%N by rewrite /r nk // geq_minr.
  have mU := rn_mat r n (nth N0 sds k); set U := random_normal _ _ _ _ in mU *.
  have mT : is_mat (tr U) n r by split; [rewrite /tr; exact: nwf_tab | exact: nshape_tr mU.2].
  apply: or_bind (hq _ _ _ mT) _ => -[A B] /=; rewrite (minn_idPr rn) => -[[wA sA] _ oA _].
  split; first by split; [rewrite /tr; exact: nwf_tab | exact: nshape_tr sA].
  move=> b c hb hc; rewrite -(oA b c hb hc); apply: eq_big_nat => j /andP[_ hj].
  by rewrite !(get_tr sA).
rewrite size_zip sk' sz minnn => fs [sf H] /=.
have e0 : [seq dim U 0 | U <- fs] = rk'.
  apply: (@eq_from_nth _ 0%N); rewrite size_map sf ?sk' // => k hk.
  by rewrite (nth_map C0) ?sf // /dim; have [[_ ->] _] := H k hk.
split=> //.
- rewrite /wf_tucker rn_nwf e0 eqxx /=; apply/(all_nthP C0); rewrite sf => k hk.
  by have [[-> e] _] := H k hk; rewrite /dim e /= eqxx.
- apply: (@eq_from_nth _ 0%N); rewrite size_map sf // => k hk.
  by rewrite (nth_map C0) ?sf // /dim; have [[_ ->] _] := H k hk.
by move=> k hk; have [[_ e] o] := H k hk; rewrite /dim e.
Qed.

(* The core and the first factor are not drawn independently: generate_state(1)[0] and
   generate_state(d)[0] are the same word, so the core determines the first factor.  If the number of
   threads divides the size of the core (it does for one thread) and the core has at least as many
   entries as that factor, the matrix whose QR gives the factor consists of entries of the core. *)
Theorem C51_tucker_independent_refuted r0 rs n0 ns seed fs core :
  let shape := n0 :: ns in let rk := [seq minn p.1 p.2 | p <- zip (r0 :: rs) shape] in
  let m := (minn r0 n0 * n0)%N in
  (0 < threads)%N -> (threads %| prods rk)%N -> (m <= prods rk)%N ->
  tucker_random gen threads state qr shape (RTuple (r0 :: rs)) seed = Ok (fs, core) ->
  exists2 pos : seq nat, size pos = m /\ {in pos, forall p, (p < size (ndata core))%N} &
  exists2 QR, qr (tr (Nd [:: minn r0 n0; n0] [seq nth 0 (ndata core) p | p <- pos])) = Ok QR &
    nth C0 fs 0 = tr QR.1.
Proof.
move=> shape rk m t0 td hm; rewrite /tucker_random -/shape -/rk /=.
set U := random_normal _ _ _ _; case eq1: (qr (tr U)) => [QR|e] //=.
case: mapM => [fs'|e] //= -[<- <-].
set st := rng_step; pose pos := [seq (c %/ st m threads * st (prods rk) threads + c %% st m threads)%N | c <- iota 0 m].
have hp c : (c < m)%N -> [/\ (c %/ st m threads < threads)%N, (c %% st m threads < st (prods rk) threads)%N,
    (st (prods rk) threads * threads)%N = prods rk & (0 < st (prods rk) threads)%N].
  move=> hc; have m0 : (0 < m)%N by apply: leq_ltn_trans hc.
  have es : st (prods rk) threads = (prods rk %/ threads)%N.
    rewrite /st /rng_step; case/dvdnP: td => q ->; rewrite mulnK // divnMDl // divn_small ?addn0 //.
    by case: (threads) t0.
  have s1 : (0 < st m threads)%N by rewrite /st /rng_step divn_gt0 //; clear -m0 t0; lia.
  have hle : (st m threads <= st (prods rk) threads)%N by apply: leq_div2r; rewrite leq_add2r.
  have hlt : (c %% st m threads < st m threads)%N by rewrite ltn_mod.
  split; last 1 [exact: leq_trans s1 hle]; rewrite ?es ?divnK // -?es.
  - rewrite ltn_divLR //; apply: leq_trans hc _.
    have := ltn_ceil (m + threads.-1) t0; rewrite -/(rng_step m threads) -/st; clear -t0; lia.
  - exact: leq_trans hlt hle.
have hq c : (c < m)%N -> (c %/ st m threads * st (prods rk) threads + c %% st m threads < prods rk)%N.
  move=> hc; have [h1 h2 h3 h4] := hp c hc; rewrite -[X in (_ < X)%N]h3; clear -h1 h2 h4; nia.
exists pos; first split; first by rewrite size_map size_iota.
  move=> p /mapP[c]; rewrite mem_iota add0n /= => hc ->; rewrite size_map size_iota.
  exact: hq hc.
exists QR => //; rewrite -eq1; congr (qr (tr _)); rewrite /U /random_normal; congr Nd.
rewrite -map_comp [prods [:: _; _]]/= muln1; apply/eq_in_map => c; rewrite mem_iota add0n /= => hc.
have [h1 h2 h3 h4] := hp c hc.
have {}hq := hq c hc.
rewrite (nth_map 0%N) ?size_iota // nth_iota // add0n.
by rewrite divnMDl // (divn_small h2) addn0 modnMDl (modn_small h2).
Qed.

(* np.random.choice(m, size=k, replace=False): k distinct numbers below m, ValueError if k > m *)
Definition choice_contract : Prop := forall s m k,
  if (k <= m)%N then exists2 l, choice s m k = Ok l & [/\ size l = k, uniq l & all (fun x => x < m)%N l]
  else choice s m k = Err ValueError.

(* exactly nnz stored entries, at distinct coordinates inside the shape *)
Theorem C51_sparse_random shape nnz seed : choice_contract ->
  if (nnz <= prods shape)%N
  then exists inds vals, [/\ sparse_random gen threads choice shape nnz seed = Ok (Sparse shape inds vals),
         wf (Sparse shape inds vals) & size vals = nnz]
  else sparse_random gen threads choice shape nnz seed = Err ValueError.
Proof.
move=> /(_ seed (prods shape) nnz); rewrite /sparse_random; case: ifP => [hn [l -> [sl ul al]]|_ ->] //=.
set inds := [seq _ | k <- _]; set vals := [seq _ | c <- _]; exists inds, vals.
have sv : size vals = nnz by rewrite size_map size_iota /= muln1.
have ec k : (k < nnz)%N -> column inds k = unravel shape (nth 0%N l k).
  move=> hk; have su p : size (unravel shape p) = size shape by elim: (shape) p => //= n s IH p; rewrite IH.
  apply: (@eq_from_nth _ 0%N); rewrite !size_map size_iota ?su // => j hj.
  rewrite (nth_map [::]) ?size_map ?size_iota // (nth_map 0%N) ?size_iota // nth_iota // add0n.
  by rewrite (nth_map 0%N) ?sl.
have lk k : (k < nnz)%N -> (nth 0 l k < prods shape)%N by move=> hk; apply: (allP al); rewrite mem_nth ?sl.
split=> //; rewrite /wf /= sv /wf_inds; apply/andP; split.
  apply/and3P; split; first by rewrite size_map size_iota.
    by rewrite all_map; apply/allP => k _; rewrite /= size_map sl.
  by apply/allP => k; rewrite mem_iota add0n /= => hk; rewrite ec // inb_unravel // lk.
rewrite /norep; have -> : [seq column inds k | k <- iota 0 nnz] = [seq unravel shape p | p <- l].
  apply: (@eq_from_nth _ [::]); rewrite !size_map size_iota ?sl // => k hk.
  by rewrite (nth_map 0%N) ?size_iota // nth_iota // add0n ec // (nth_map 0%N) ?sl.
rewrite map_inj_in_uniq // => x y /(allP al) hx /(allP al) hy e.
by rewrite -(ravelK hx) -(ravelK hy) e.
Qed.

Theorem C51_dense_random shape seed :
  wf (dense_random gen threads shape seed) /\ tshape (dense_random gen threads shape seed) = shape.
Proof. by split=> //; exact: rn_nwf. Qed.

(* ---- the cores of a TensorTrainDRM: the assumption made in the theorems on sketches ---- *)
Theorem C51_drm_cores_ok : tt_random_ok (drm_cores gen threads state qr).
Proof.
move=> shape rank seed s0 sr /=; rewrite /drm_cores.
have hp : process_tt_rank (RTuple rank) shape false = Ok rank by apply: process_rtuple.
have [||cs -> [wc es er]] := @C51_tt_random shape (RTuple rank) rank seed None "norm-preserve"; [by right|by []|].
have [nc lc] := andP wc; split=> //.
have sc : size cs = size shape by rewrite -es size_map.
apply: (@eq_from_nth _ 0%N); rewrite size_map size_takel ?sc ?sr ?leq_pred // => k hk.
rewrite (nth_map C0) ?size_takel ?sc ?leq_pred // nth_take // -er /tt_rank (nth_map C0) ?size_behead ?sc // nth_behead.
by rewrite (RoundThy.links_nth lc) // sc; clear -hk; lia.
Qed.
End Random.

Example C51_random_nonvacuous :
  process_tt_rank (RInt 7) [:: 2; 5; 4]%N true = Ok [:: 2; 4]%N /\ process_tt_rank (RInt 7) [:: 2; 5; 4]%N false = Ok [:: 7; 7]%N /\
  choice_contract (fun _ m k => if (k <= m)%N then Ok (iota 0 k) else Err ValueError).
Proof.
split=> //; split=> // s m k; case: leqP => // hk; exists (iota 0 k) => //.
by rewrite size_iota iota_uniq; split=> //; apply/allP => x; rewrite mem_iota add0n /= => h; exact: leq_trans h hk.
Qed.
(* a 2 x 3 Tucker tensor of ranks (2, 2), two threads *)
Example C51_tucker_nonvacuous (R : rcfType) (gen : N -> nat -> nat -> R) (state : N -> nat -> N) :
  let rk := [seq minn p.1 p.2 | p <- zip [:: 2; 2]%N [:: 2; 3]%N] in
  [/\ (2 %| prods rk)%N, (minn 2 2 * 2 <= prods rk)%N &
   exists fs core, tucker_random gen 2 state (fun a => Ok (a, a)) [:: 2; 3]%N (RTuple [:: 2; 2]%N) 0 = Ok (fs, core)].
Proof. by split=> //; do 2 eexists. Qed.

Print Assumptions C51_tt_random.
Print Assumptions C51_tt_random_orthog.
Print Assumptions C51_tt_random_errors.
Print Assumptions C51_cp_random.
Print Assumptions C51_tucker_random.
Print Assumptions C51_tucker_independent_refuted.
Print Assumptions C51_sparse_random.
Print Assumptions C51_dense_random.
Print Assumptions C51_drm_cores_ok.
