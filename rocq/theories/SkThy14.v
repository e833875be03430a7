(* stream_sketch with DRMs it constructs itself; argument checks *)
From Coq Require Import String Ascii NArith.
From mathcomp Require Import all_ssreflect all_algebra.
From mathcomp Require Import zify.
From Verif Require Import Py Nd NdThy Ein Utils Tensor Hash Sketch Spec ChainThy TensorThy TensorThy2 TrimThy RoundThy SkSpec SkThy1 SkThy4 SkThy5 SkThy7 SkThy8 SkThy9 SkThy10 SkThy11 SkThy12 SkThy13.
Set Implicit Arguments. Unset Strict Implicit. Unset Printing Implicit Defensive.
Import GRing.Theory.
Local Open Scope ring_scope.

Section New.
Variable R : comRingType.
Variable to_normal : N -> R.
Variable tt_random : seq nat -> seq nat -> N -> seq (nd R).
Variable stream : N -> nat -> R.
Variable offset : N -> nat -> N.
Variable right_seed_of : N -> nat -> N.
Variable lstsq : nd R -> nd R -> res (nd R).
Variable qr_econ : nd R -> res (nd R * nd R).
Notation arr := (nd R).
Notation tensor := (tensor R).
Notation drm := (drm R).
Notation C0 := (C0 R).
Implicit Types (X Y : tensor) (n mu : nat) (D E : drm).
Notation gs := (general_sketch to_normal lstsq qr_econ).
Notation gfam := (gfam to_normal).
Notation is_sk := (is_sk to_normal).
Notation new := (drm_new tt_random stream offset).
Notation made := (made tt_random stream offset).
Notation stream_sketch := (stream_sketch to_normal tt_random stream offset right_seed_of lstsq qr_econ).
Hypothesis hrand : tt_random_ok tt_random.

Lemma fits_tt t shape rk D X : made t shape rk D -> d_class D = TensorTrainDRM -> all (fun r => 0 < r)%N rk ->
  fits D (size shape).-1 X.
Proof.
move=> mD cD hp.
have [_ srk] := made_good hrand mD.
suff hu : unsliced D (size shape).-1.
  elim/tensor_ind': X => [a|s i v|cs|cs|fs c|s Xs IH] /=; try by rewrite /fits1 cD.
  elim: Xs IH => [|x Xs IHl] IH //=; split; first by apply: IH; left.
  by apply: IHl => y hy; apply: IH; right.
move: mD => [c [ent [rank [seed [hpr ha hn]]]]].
have [D0 [e0 [ec _ _ _] [_ _ emin emax _] _]] := drm_newE stream offset hrand ent t hpr ha; rewrite hn in e0; case: e0 => e0.
rewrite -{}e0 in ec emin emax; rewrite cD in ec.
have [s0 _] := process_size hpr erefl.
have ecs : exists sd, let cs := tt_random (flip t shape) (flip t rk) sd in d_cores D = take (size cs).-1 cs.
  by move: hn; rewrite -ec /drm_new /drm_init hpr /= => -[<-] /=; eexists.
move: ecs => [sd /= ecs].
have [||_ _ h3] := hrand (shape := flip t shape) (rank := flip t rk) sd.
- by rewrite /flip; case: (t); rewrite ?size_rev.
- by rewrite /flip; case: (t); rewrite ?size_rev.
move=> mu hm; rewrite emin emax nth_nseq if_same.
have sf : size (flip t rk) = (size shape).-1 by rewrite /flip; case: (t); rewrite ?size_rev.
have sc : size (d_cores D) = (size shape).-1 by rewrite ecs -sf -[in RHS]h3 size_map.
have <- : nth 0%N (flip t rk) mu = dim (nth C0 (d_cores D) mu) 2.
  by rewrite -h3 -ecs (nth_map C0) ?sc.
split=> //; have : all (fun r => 0 < r)%N (flip t rk) by rewrite /flip; case: (t); rewrite ?all_rev.
by move/all_nthP; apply; rewrite sf.
Qed.

Lemma gt_sym d (l r : seq nat) b : (0 < d)%N -> (forall mu, (mu < d)%N -> nth 0 r mu < nth 0 l mu)%N ->
  reflect (forall mu, (mu < d)%N -> nth 0 l mu < nth 0 r mu)%N b -> b = false.
Proof. by move=> d0 h; case=> // h2; have := h 0%N d0; rewrite ltnNge ltnW // h2. Qed.

Lemma rank_gtE l r shape lk rk : (1 < size shape)%N -> process_tt_rank l shape false = Ok lk ->
  process_tt_rank r shape false = Ok rk -> {b : bool & ((rank_gt l r = Ok b) *
  reflect (forall mu, (mu < (size shape).-1)%N -> nth 0 rk mu < nth 0 lk mu)%N b)%type}.
Proof.
move=> d1; have d0 : (0 < (size shape).-1)%N by clear -d1; lia.
rewrite /process_tt_rank (negbTE (_ : size shape != 0)%N) ?orbF; last by clear -d1; lia.
case: l => [x|l]; case: r => [y|r]; rewrite ?size_nseq ?eqxx /=.
- move=> [<-] [<-]; eexists; split; first by [].
  by apply: (iffP idP) => [h mu hm|/(_ 0%N d0)]; rewrite !nth_nseq ?hm ?d0.
- case: eqP => //= sr [<-] [<-]; eexists; split; first by [].
  apply: (iffP (all_nthP 0%N)); rewrite sr => h mu hm; have := h mu hm; by rewrite nth_nseq hm.
- case: eqP => //= sr [<-] [<-]; eexists; split; first by [].
  apply: (iffP (all_nthP 0%N)); rewrite sr => h mu hm; have := h mu hm; by rewrite nth_nseq hm.
case: eqP => //= sl [<-]; case: eqP => //= sr [<-]; rewrite all_gtE ?sl //; eexists; split; first by [].
exact: all_zipP.
Qed.

Lemma process_trimE r shape lk trim : process_tt_rank r shape false = Ok lk ->
  process_tt_rank r shape trim = Ok (if trim then trim_ranks shape lk else lk).
Proof. by rewrite /process_tt_rank; case: ifP => //= _ [->]. Qed.

Lemma process_rtuple shape (l : seq nat) : (0 < size shape)%N -> size l = (size shape).-1 ->
  process_tt_rank (RTuple l) shape false = Ok l.
Proof. by move=> s0 sl; rewrite process_tuple // sl eqxx. Qed.

Lemma make_newE shape l r lk rk sd lt rt ent tl tr_ : (1 < size shape)%N -> all (fun n => 0 < n)%N shape ->
  process_tt_rank l shape false = Ok lk -> process_tt_rank r shape false = Ok rk ->
  all (fun n => 0 < n)%N lk -> all (fun n => 0 < n)%N rk ->
  let lk' := trim_if tl shape lk in let rk' := trim_if tr_ shape rk in
  let s := if sd is Some s then s else ent 0%N in
  new_args (lclass lt rt) lk' (Some s) -> new_args (rclass lt rt) rk' (Some (right_seed_of s (size shape))) ->
  exists D E, [/\ make_drms tt_random stream offset right_seed_of shape l r sd lt rt None None ent tl tr_ = Ok (D, E),
   [/\ new (lclass lt rt) ent (RTuple lk') shape false (Some s) = Ok D, made false shape lk' D, d_class D = lclass lt rt & below lk' lk],
   [/\ new (rclass lt rt) ent (RTuple rk') shape true (Some (right_seed_of s (size shape))) = Ok E, made true shape rk' E, d_class E = rclass lt rt & below rk' rk] &
   all (fun n => 0 < n)%N lk' /\ all (fun n => 0 < n)%N rk'].
Proof.
move=> d1 hs pl pr hl hr lk' rk' s al ar.
have s0 : (0 < size shape)%N by clear -d1; lia.
have tr1 t (k : seq nat) : size k = (size shape).-1 -> all (fun n => 0 < n)%N k ->
    [/\ size (trim_if t shape k) = (size shape).-1, all (fun n => 0 < n)%N (trim_if t shape k) & below (trim_if t shape k) k].
  move=> sk hk; rewrite /trim_if; case: t => //.
  by have [h1 h2 h3 _] := trim_bounds hs hk s0 sk; split; rewrite ?h1.
have [_ slk] := process_size pl erefl; have [_ srk] := process_size pr erefl.
have [l1 l2 l3] := tr1 tl _ slk hl; have [r1 r2 r3] := tr1 tr_ _ srk hr.
have pl' := process_rtuple s0 l1; have pr' := process_rtuple s0 r1.
have [D [eD [cD _ _ _] _ gD]] := drm_newE stream offset hrand ent false pl' al.
have [E [eE [cE _ _ _] _ gE]] := drm_newE stream offset hrand ent true pr' ar.
exists D, E; split=> //.
- rewrite /make_drms (process_trimE tl pl) /= -/(trim_if _ _ _) -/lk' -/s -/(lclass lt rt) eD /=.
  by rewrite (process_trimE tr_ pr) /= -/(trim_if _ _ _) -/rk' -/(rclass lt rt) eE.
- by split=> //; exists (lclass lt rt), ent, (RTuple lk'), (Some s).
- by split=> //; exists (rclass lt rt), ent, (RTuple rk'), (Some (right_seed_of s (size shape))).
Qed.

Lemma below_nth v u mu : below v u -> (nth 0 v mu <= nth 0 u mu)%N.
Proof.
move=> [sv h]; have [hm|hm] := ltnP mu (size v); first exact: h.
by rewrite nth_default.
Qed.

Lemma stream_newE o X l r lk rk sd lt rt ent : let sh := tshape X in let d := size sh in
  wf_gen false X -> order_ok o X -> (1 < d)%N -> all (fun n => 0 < n)%N sh ->
  process_tt_rank l sh false = Ok lk -> process_tt_rank r sh false = Ok rk ->
  all (fun n => 0 < n)%N lk -> all (fun n => 0 < n)%N rk ->
  forall lbig : bool,
  (forall mu, (mu < d.-1)%N -> if lbig then (nth 0 rk mu < nth 0 lk mu)%N else (nth 0 lk mu < nth 0 rk mu)%N) ->
  let lk' := trim_if (~~ lbig) sh lk in let rk' := trim_if lbig sh rk in
  let s := if sd is Some s then s else ent 0%N in
  new_args (lclass lt rt) lk' (Some s) -> new_args (rclass lt rt) rk' (Some (right_seed_of s d)) ->
  (forall D, new (lclass lt rt) ent (RTuple lk') sh false (Some s) = Ok D -> fits D d.-1 X) ->
  (forall E, new (rclass lt rt) ent (RTuple rk') sh true (Some (right_seed_of s d)) = Ok E -> fits E d.-1 X) ->
  exists2 st, stream_sketch X l r sd lt rt None None ent = Ok st &
    [/\ made false sh lk' (left_drm st), made true sh rk' (right_drm st),
        d_class (left_drm st) = lclass lt rt /\ d_class (right_drm st) = rclass lt rt,
        strict_ranks (left_drm st) (right_drm st) d &
        is_sk o (left_drm st) (right_drm st) sh (den X) (sketch_ st)].
Proof.
move=> sh d w oX d1 hsh pl pr hl hr lbig hb lk' rk' s al ar fD fE.
have [bl [ebl rl]] := rank_gtE d1 pl pr; have [br [ebr rr]] := rank_gtE d1 pr pl.
have d0 : (0 < d.-1)%N by clear -d1; lia.
have [hbl hbr] : bl = lbig /\ br = ~~ lbig.
  case: (lbig) hb => hb; split; try exact/rl; try exact/rr.
    by apply: (gt_sym d0 hb rr).
  by apply: (gt_sym d0 hb rl).
have [D [E [em [eD mD cD lb] [eE mE cE rb] [pl' pr']]]] := make_newE d1 hsh pl pr hl hr al ar.
have [[gD sD tD rD] slk] := made_good hrand mD; have [[gE sE tE rE] srk] := made_good hrand mE.
have hp : pair_ok D E sh by [].
have [S0 eS hS] := gs_isk to_normal lstsq qr_econ w d1 hp (fD _ eD) (fE _ eE) oX.
rewrite /stream_sketch ebl ebr hbl hbr /= (_ : ~~ lbig && ~~ ~~ lbig = false); last by case: (lbig).
rewrite em /= eS /=; eexists; first by [].
split=> //=; rewrite /strict_ranks.
case: (lbig) hb lb rb mD mE => hb lb rb mD mE; [right|left] => mu hm; rewrite -(made_rcols hrand mE hm) -(made_lcols hrand mD hm).
  by apply: leq_ltn_trans (below_nth mu rb) _; apply: hb.
by apply: leq_ltn_trans (below_nth mu lb) _; apply: hb.
Qed.

(* the rejected rank pairs *)
Lemma stream_reject X l r lk rk sd lt rt (gl gr : option drm) ent : let sh := tshape X in let d := size sh in
  (1 < d)%N -> process_tt_rank l sh false = Ok lk -> process_tt_rank r sh false = Ok rk ->
  ~ (forall mu, (mu < d.-1)%N -> (nth 0 rk mu < nth 0 lk mu)%N) ->
  ~ (forall mu, (mu < d.-1)%N -> (nth 0 lk mu < nth 0 rk mu)%N) ->
  stream_sketch X l r sd lt rt gl gr ent = Err ValueError.
Proof.
move=> sh d d1 pl pr h1 h2.
have [bl [ebl rl]] := rank_gtE d1 pl pr; have [br [ebr rr]] := rank_gtE d1 pr pl.
rewrite /stream_sketch ebl ebr /=.
by case: rl => // _; case: rr.
Qed.
End New.
