(* dot / @ (tensor.py:121-129, 250-255, 542-557, 670-671) is the Frobenius inner product. *)
From Coq Require Import String Ascii.
From mathcomp Require Import all_ssreflect all_algebra.
From mathcomp Require Import zify.
From Verif Require Import Py Nd NdThy Ein Utils Tensor Spec ChainThy TensorThy TensorThy2 TensorThy3 TensorThy4 GatherThy.
Set Implicit Arguments. Unset Strict Implicit. Unset Printing Implicit Defensive.
Import GRing.Theory.
Local Open Scope ring_scope.

Section Dot.
Variable R : comRingType.
Notation arr := (nd R).
Notation tensor := (tensor R).
Implicit Types (todo done : seq arr) (X Y : tensor).

(* "r is the Gram matrix of the two partial contractions" *)
Definition gram (cs1 cs2 : seq arr) (a b : nat) (r : arr) : Prop :=
  [/\ nwf r, nshape r = [:: a; b] &
   forall x y, (x < a)%N -> (y < b)%N ->
     get r [:: x; y] = sum_idx [seq dim C 1 | C <- cs1] (fun i => chain cs1 i 0 x * chain cs2 i 0 y)].

Lemma gram_step d1 d2 a b r A B c d : links 1 d1 a -> links 1 d2 b ->
  [seq dim C 1 | C <- d1] = [seq dim C 1 | C <- d2] ->
  gram d1 d2 a b r ->
  nwf A -> nshape A = [:: a; dim A 1; c] -> nwf B -> nshape B = [:: b; dim A 1; d] ->
  exists2 r', einsum "ij,ika,jkb->ab" [:: r; A; B] = Ok r' & gram (rcons d1 A) (rcons d2 B) c d r'.
Proof.
move=> L1 L2 Esh [Hr Sr Gr] HA SA HB SB.
have D2A : dim A 2 = c by rewrite /dim SA.
have D2B : dim B 2 = d by rewrite /dim SB.
have Esz : size d1 = size d2 by rewrite -(size_map (fun C => dim C 1)) Esh size_map.
rewrite (es_ij_ika_jkb Sr SA SB); eexists; first by [].
split; [exact: nwf_tab2|by []|] => x y Hx Hy; rewrite get_tab2 //.
rewrite map_rcons sum_idx_rcons.
transitivity (sum_idx [seq dim C 1 | C <- d1] (fun i =>
  \sum_(0 <= xi < a) \sum_(0 <= xj < b) \sum_(0 <= xk < dim A 1)
     chain d1 i 0 xi * chain d2 i 0 xj * (get A [:: xi; xk; x] * get B [:: xj; xk; y]))).
  rewrite sum_idx_big; apply: eq_big_nat => xi /= Hi.
  rewrite sum_idx_big; apply: eq_big_nat => xj /= Hj.
  rewrite sum_idx_big; apply: eq_bigr => xk _.
  by rewrite sum_idxZr Gr.
apply: eq_sum_idx => i Hi.
have S1 : size i = size d1 by rewrite (inb_size Hi) size_map.
rewrite exchange_big /= (eq_bigr _ (fun _ _ => exchange_big _ _ _ _ _ _)) /= exchange_big /=.
apply: eq_bigr => xk _.
rewrite (chain_rcons _ L1) ?D2A // (chain_rcons _ L2) ?D2B ?S1 //.
rewrite exchange_big /= big_distrl /=; apply: eq_bigr => xi _; rewrite big_distrr /=.
by apply: eq_bigr => xj _; rewrite mulrACA.
Qed.

Lemma tt_dot_fold todo1 todo2 d1 d2 a b r : links 1 d1 a -> links 1 d2 b ->
  [seq dim C 1 | C <- d1] = [seq dim C 1 | C <- d2] -> gram d1 d2 a b r ->
  links a todo1 1 -> links b todo2 1 ->
  [seq dim C 1 | C <- todo1] = [seq dim C 1 | C <- todo2] ->
  exists2 r', foldM (fun r p => einsum "ij,ika,jkb->ab" [:: r; p.1; p.2]) r (zip todo1 todo2) = Ok r'
   & gram (d1 ++ todo1) (d2 ++ todo2) 1 1 r'.
Proof.
elim: todo1 todo2 d1 d2 a b r => [|A todo1 IH] [|B todo2] //= d1 d2 a b r L1 L2 Esh G.
  by move=> /eqP Ea /eqP Eb _; rewrite Ea Eb in G; rewrite !cats0; exists r.
case/and3P=> HA /eqP SA LA /and3P[HB /eqP SB LB] [ES ES'].
have [|r' Er G'] := gram_step L1 L2 Esh G HA SA HB (d := dim B 2); first by rewrite ES.
rewrite Er /= -!cat_rcons.
apply: (IH _ _ _ _ _ _ _ _ _ G') => //.
- exact: links_rconsI L1 HA SA.
- exact: links_rconsI L2 HB SB.
by rewrite !map_rcons Esh ES.
Qed.

Lemma tt_dotE cs1 cs2 : wf_tt cs1 -> wf_tt cs2 -> tshape (TT cs1 : tensor) = tshape (TT cs2 : tensor) ->
  tt_dot cs1 cs2 = Ok (inner (TT cs1) (TT cs2)).
Proof.
case: cs1 cs2 => [|A cs1] [|B cs2] // /andP[_ L1] /andP[_ L2] ES.
have [ES0 ES'] : dim A 1 = dim B 1 /\ [seq dim C 1 | C <- cs1] = [seq dim C 1 | C <- cs2] by case: ES.
have /and3P[HA /eqP SA L1'] := L1; have /and3P[HB /eqP SB L2'] := L2.
rewrite /tt_dot; rewrite -ES0 in SB; rewrite (es_ijk_ljm SA SB) /=.
have LA : links 1 [:: A] (dim A 2) by rewrite /= HA {1}SA !eqxx.
have LB : links 1 [:: B] (dim B 2) by rewrite /= HB {1}SB -ES0 !eqxx.
have Es : [seq dim C 1 | C <- [:: A]] = [seq dim C 1 | C <- [:: B]] by rewrite /= ES0.
set r0 := tab2 _ _ _.
have G0 : gram [:: A] [:: B] (dim A 2) (dim B 2) r0.
  split; [exact: nwf_tab2|by []|] => x y Hx Hy; rewrite get_tab2 // big_nat1 [map _ _]/= sum_idx1.
  by apply: eq_bigr => k _; rewrite big_nat1 !chain1.
have [r -> [Hr Sr Gr]] := tt_dot_fold LA LB Es G0 L1' L2' ES'.
rewrite /=; congr Ok.
case: r Hr Sr Gr => sh [|v [|w l]] /eqP /= Hr Sr Gr; rewrite Sr in Hr => //.
rewrite /nsum /= addr0.
by have := Gr 0%N 0%N isT isT; rewrite /get Sr /=.
Qed.

Lemma ldot_map (T : Type) (l : seq T) (f g : T -> R) :
  ldot (map f l) (map g l) = Ok (\sum_(x <- l) f x * g x).
Proof.
rewrite /ldot !size_map eqxx; congr Ok.
by elim: l => [|x l IH] /=; rewrite ?big_nil ?big_cons // IH.
Qed.

Lemma dense_dotE X Y : wf X -> wf Y -> tshape X = tshape Y -> dense_dot X Y = Ok (inner X Y).
Proof.
move=> /to_numpyE[a Ea [Ha Sa Ga]] /to_numpyE[b Eb [Hb Sb Gb]] ES.
rewrite /dense_dot Ea Eb /= -(tab_get Ha) -(tab_get Hb) /= Sa Sb -ES ldot_map /inner sum_idx_flat.
congr Ok; rewrite /index_iota subn0 big_seq [RHS]big_seq.
apply: eq_bigr => p; rewrite mem_iota => /andP[_ Hp].
by rewrite Ga ?inb_unravel // Gb -?ES ?inb_unravel.
Qed.

Lemma sparse_dotE s inds (vals : seq R) Y : wf (Sparse s inds vals) -> wf Y -> s = tshape Y ->
  (0 < size s)%N ->
  match Y with TT _ | CP _ | Sparse _ _ _ => true | _ => false end ->
  exists2 e, gather Y inds = Ok e & ldot e vals = Ok (inner (Sparse s inds vals) Y).
Proof.
move=> /andP[HX _] HY ES Hs HYf.
have Hw : wf_inds (tshape Y) inds (size vals) by rewrite -ES.
rewrite (gatherE HY Hw) -?ES //; eexists; first by [].
rewrite /rows_at -{2}(map_nth_iota 0 vals) ldot_map; congr Ok.
rewrite /inner [tshape _]/=.
under [RHS]eq_sum_idx => i _ do rewrite [den _ _ in X in X * _]/= big_distrl /=.
rewrite sum_idx_big /index_iota subn0 big_seq [RHS]big_seq; apply: eq_bigr => k.
rewrite mem_iota => /andP[_ Hk].
have Hin : inb s (column inds k) by case/and3P: HX => _ _ /allP; apply; rewrite mem_iota.
rewrite -(sum_idx_delta (fun i => den Y i * nth 0 vals k) Hin); apply: eq_sum_idx => i _.
by rewrite eq_sym -!mulrA [nth _ _ _ * _]mulrC.
Qed.

Lemma inner_sym X Y : tshape X = tshape Y -> inner X Y = inner Y X.
Proof. by move=> E; rewrite /inner E; apply: eq_sum_idx => i _; rewrite mulrC. Qed.

Lemma inner_suml s Xs Y : all (fun x => tshape x == s) Xs ->
  inner (TSum s Xs) Y = \sum_(x <- Xs) inner x Y.
Proof.
move=> H; rewrite /inner [tshape _]/=.
under eq_sum_idx => i _ do rewrite den_sum big_distrl /=.
rewrite sum_idx_big; elim: Xs H => [|x Xs IH] /=; rewrite ?big_nil ?big_cons // => /andP[/eqP E H].
by rewrite IH // E.
Qed.

(* nesting depth of sums *)
Fixpoint depth X : nat :=
  (if X is TSum _ Xs then (foldr maxn 0%N (map depth Xs)).+1 else 0)%N.

Definition is_sum X := if X is TSum _ _ then true else false.

Definition dot_list (f : tensor -> option (res R)) (Xs : seq tensor) : option (res R) :=
  foldr (fun x acc =>
              match f x, acc with
              | Some (Ok v), Some (Ok w) => Some (Ok (v + w))
              | Some (Err e), _ => Some (Err e)
              | Some _, Some (Err e) => Some (Err e)
              | _, _ => None
              end) (Some (Ok 0)) Xs.

Lemma dot_sumE n s Xs Y b : dot n.+1 (TSum s Xs) Y b = dot_list (fun x => dot n x Y b) Xs.
Proof. by []. Qed.

Lemma dot_listE (f : tensor -> option (res R)) (g : tensor -> R) Xs :
  (forall x, List.In x Xs -> f x = Some (Ok (g x))) ->
  dot_list f Xs = Some (Ok (\sum_(x <- Xs) g x)).
Proof.
elim: Xs => [|x Xs IH] H; rewrite ?big_nil ?big_cons //= H; last by left.
by rewrite -/(dot_list f Xs) IH // => y Hy; apply: H; right.
Qed.

(* two tensors that are not sums *)
Lemma dot_leaf n X Y b : wf X -> wf Y -> tshape X = tshape Y -> (0 < size (tshape X))%N ->
  ~~ is_sum X -> ~~ is_sum Y -> dot n.+2 X Y b = Some (Ok (inner X Y)).
Proof.
move=> HX HY ES Hs NX NY.
have Hbase2 X' Y' : wf X' -> wf Y' -> tshape X' = tshape Y' -> (0 < size (tshape X'))%N ->
    ~~ is_sum X' -> ~~ is_sum Y' -> dot n.+1 X' Y' true = Some (Ok (inner X' Y')).
  move=> {X Y HX HY ES Hs NX NY} HX HY ES Hs NX NY.
  have D := dense_dotE HX HY ES.
  have Hb : match Y' with TSum _ _ => dot n Y' X' false
            | _ => if ~~ true then dot n Y' X' true else Some (dense_dot X' Y') end
            = Some (Ok (inner X' Y')) by rewrite D; case: (Y') NY.
  case: X' HX HY ES Hs NX D Hb => [a|s inds vals|cs|cs|fs c|s Xs] HX HY ES Hs NX D Hb //.
    case HYf: (match Y' with TT _ | CP _ | Sparse _ _ _ => true | _ => false end).
      by have [e /= -> ->] := sparse_dotE HX HY ES Hs HYf.
    by rewrite -Hb; case: (Y') HYf NY.
  case: Y' HY ES NY D Hb => [a|s inds vals|cs'|cs'|fs c|s Xs] HY ES NY D Hb //.
  by rewrite -(tt_dotE HX HY ES).
have ES' := esym ES; have Hs' : (0 < size (tshape Y))%N by rewrite -ES.
have Hb : (match Y with TSum _ _ => dot n.+1 Y X false
            | _ => if ~~ b then dot n.+1 Y X true else Some (dense_dot X Y) end)
   = Some (Ok (inner X Y)).
  have -> : Some (Ok (inner X Y)) = if ~~ b then dot n.+1 Y X true else Some (dense_dot X Y).
    by rewrite Hbase2 // dense_dotE // (inner_sym ES); case: b.
  by case: (Y) NY.
move: Hb {Hbase2}; set k := n.+1 => Hb.
case: X HX HY ES Hs NX ES' Hb => [a|s inds vals|cs|cs|fs c|s Xs] HX HY ES Hs NX ES' Hb //.
  case HYf: (match Y with TT _ | CP _ | Sparse _ _ _ => true | _ => false end).
    by have [e /= -> ->] := sparse_dotE HX HY ES Hs HYf.
  by rewrite -Hb; case: (Y) HYf NY.
case: Y HY ES NY Hs' ES' Hb => [a|s inds vals|cs'|cs'|fs c|s Xs] HY ES NY Hs' ES' Hb //.
by rewrite -(tt_dotE HX HY ES).
Qed.

Lemma In_depth (x : tensor) Xs : List.In x Xs -> (depth x <= foldr maxn 0%N (map depth Xs))%N.
Proof.
elim: Xs => [|y Xs IH] //= [->|/IH H]; first exact: leq_maxl.
by apply: leq_trans H _; apply: leq_maxr.
Qed.

Lemma wf_sum_In nr s Xs x : wf_gen nr (TSum s Xs : tensor) -> List.In x Xs -> wf_gen nr x /\ tshape x = s.
Proof.
rewrite wf_sumE => /andP[_]; elim: Xs => [|y Xs IH] //= /andP[/andP[Hy /eqP Sy] H] [<-|Hx] //.
exact: IH.
Qed.

Lemma all_sh nr s Xs : wf_gen nr (TSum s Xs : tensor) -> all (fun x => tshape x == s) Xs.
Proof. by rewrite wf_sumE => /andP[_]; apply: sub_all => x /andP[]. Qed.

(* X a sum, Y not *)
Lemma dot_suml X Y b n : ~~ is_sum Y -> wf X -> wf Y -> tshape X = tshape Y ->
  (0 < size (tshape X))%N -> (depth X + 1 < n)%N -> dot n X Y b = Some (Ok (inner X Y)).
Proof.
move=> NY; elim/tensor_ind': X Y NY b n => [a|s i v|cs|cs|fs c|s Xs IH] Y NY b
  [|[|n]] HX HY ES Hs Hn; rewrite ?addn1 // in Hn; try by apply: dot_leaf.
rewrite dot_sumE (@dot_listE _ (fun x => inner x Y)) ?(inner_suml _ (all_sh HX)) // => x Hx.
have [W S] := wf_sum_In HX Hx; have Hd := In_depth Hx.
apply: IH => //; rewrite ?S // addn1; move: Hn => /=; rewrite !ltnS => Hn.
exact: leq_ltn_trans Hd _.
Qed.

Lemma dot_swap n X Y b : ~~ is_sum X -> is_sum Y -> dot n.+1 X Y b = dot n Y X false.
Proof. by case: X; case: Y. Qed.

(* C09 *)
Lemma dotE X Y b n : wf X -> wf Y -> tshape X = tshape Y ->
  (0 < size (tshape X))%N -> (depth X + depth Y + 2 < n)%N -> dot n X Y b = Some (Ok (inner X Y)).
Proof.
elim/tensor_ind': X Y b n => [a|s i v|cs|cs|fs c|s Xs IH] Y b [|n] HX HY ES Hs Hn;
  rewrite ?addn2 // in Hn.
6: {
  rewrite dot_sumE (@dot_listE _ (fun x => inner x Y)) ?(inner_suml _ (all_sh HX)) // => x Hx.
  have [W S] := wf_sum_In HX Hx; have Hd := In_depth Hx.
  apply: IH => //; rewrite ?S //; move: Hn => /=; lia. }
all: case HYs: (is_sum Y); last by (apply: dot_suml; rewrite ?HYs //; move: Hn => /=; lia).
all: rewrite dot_swap // (inner_sym ES); apply: dot_suml; rewrite -?ES //; move: Hn => /=; lia.
Qed.

(* the observable forms *)
Lemma obs_dot X Y n : wf X -> wf Y -> tshape X = tshape Y -> (0 < size (tshape X))%N ->
  (depth X + depth Y + 2 < n)%N ->
  exists a b, [/\ to_numpy X = Ok a, to_numpy Y = Ok b &
    dot n X Y false = Some (Ok (sum_idx (tshape X) (fun i => get a i * get b i)))].
Proof.
move=> HX HY ES Hs Hn; rewrite dotE //.
have [a -> [_ _ Ga]] := to_numpyE HX; have [b -> [_ _ Gb]] := to_numpyE HY.
exists a, b; split=> //; congr (Some (Ok _)); apply: eq_sum_idx => i Hi.
by rewrite Ga // Gb // -ES.
Qed.

Lemma obs_dot_sym X Y n : wf X -> wf Y -> tshape X = tshape Y -> (0 < size (tshape X))%N ->
  (depth X + depth Y + 2 < n)%N -> dot n X Y false = dot n Y X false.
Proof.
move=> HX HY ES Hs Hn; rewrite !dotE // -?ES //; first by rewrite (inner_sym ES).
by rewrite (addnC (depth Y)).
Qed.

Lemma obs_gather X idx N : wf X -> wf_inds (tshape X) idx N -> (0 < size (tshape X))%N ->
  match X with TT _ | CP _ | Sparse _ _ _ => true | _ => false end ->
  exists a r, [/\ to_numpy X = Ok a, gather X idx = Ok r, size r = N &
    forall k, (k < N)%N -> nth 0 r k = get a (column idx k)].
Proof.
move=> HX Hw Hs Hf; have [a -> [_ _ Ga]] := to_numpyE HX.
exists a, (rows_at idx N (den X)); rewrite (gatherE HX Hw) //; split=> //.
  by rewrite size_map size_iota.
move=> k Hk; rewrite (nth_map 0%N) ?size_iota // nth_iota // add0n Ga //.
by case/and3P: Hw => _ _ /allP; apply; rewrite mem_iota.
Qed.

Lemma obs_split s inds (vals : seq R) n : wf (Sparse s inds vals) -> (0 < n)%N ->
  exists2 Y, sparse_split s inds vals n = Ok Y &
  [/\ wf Y, to_numpy Y = to_numpy (Sparse s inds vals) &
   exists pieces : seq (seq (seq nat) * seq R),
    [/\ Y = TSum s [seq Sparse s p.1 p.2 | p <- pieces], size pieces = n,
        flatten [seq p.2 | p <- pieces] = vals &
        forall r, (r < size inds)%N ->
          flatten [seq nth [::] p.1 r | p <- pieces] = nth [::] inds r]].
Proof.
move=> HX Hn; have [Y EY [WY SY P]] := sparse_splitE HX Hn.
by exists Y => //; split=> //; apply: to_numpy_same.
Qed.

Lemma obs_zero shape rank rk : process_tt_rank rank shape false = Ok rk ->
  exists2 cs, tt_zero R shape rank = Ok cs &
  [/\ wf_tt cs, tshape (TT cs) = shape, tt_rank cs = rk &
      exists2 a, to_numpy (TT cs) = Ok a & forall i, inb shape i -> get a i = 0].
Proof.
move=> E; have [cs Ecs [W S K D]] := @tt_zeroE R _ _ _ E; exists cs => //; split=> //.
have [a Ea [_ _ Ga]] := to_numpyE (W : wf (TT cs)).
by exists a => // i Hi; rewrite Ga ?S // D.
Qed.
End Dot.
