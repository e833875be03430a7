(* C67: download_data called by several processes at the same time for one URL, in any interleaving *)
From Coq Require Import String Ascii.
From mathcomp Require Import all_ssreflect.
From mathcomp Require Import zify.
From Verif Require Download.
From Verif Require Import DlConc.
Set Implicit Arguments. Unset Strict Implicit. Unset Printing Implicit Defensive.

Section C67.
Variable byte : Type.
Variable zero : byte.
Variable content : seq byte.
Notation world := (world byte).
Notation act := (act zero content).
Notation run := (run zero content).
Notation stage_of w i := (nth Killed (procs w) i).

(* a byte of the file is that of the content, or zero *)
Definition partial (f : seq byte) : Prop :=
  size f <= size content /\ forall p, p < size f -> nth zero f p = nth zero content p \/ nth zero f p = zero.
Definition has_first (k : nat) (f : seq byte) : Prop := k <= size f /\ forall p, p < k -> nth zero f p = nth zero content p.

Definition Inv (w : world) : Prop :=
  (forall i k, stage_of w i = Copying k -> k <= size content) /\
  match file w with
  | None => forall i, match stage_of w i with Looking | Asking | Failed | Killed => true | _ => false end
  | Some f => partial f /\ exists l, match stage_of w l with
      | Copying k => has_first k f
      | Returned => f = content
      | Killed => l < size (procs w)
      | _ => False
      end
  end.

Lemma has_all f : partial f -> has_first (size content) f -> f = content.
Proof.
move=> [h1 _] [h2 h3]; have es : size f = size content by apply/eqP; rewrite eqn_leq h1.
by apply: (@eq_from_nth _ zero) => // p hp; apply: h3; rewrite -es.
Qed.

Lemma size_chunk n k : k <= size content -> k + size (take n (drop k content)) <= size content.
Proof. by rewrite size_take size_drop; case: ifP; lia. Qed.

Lemma size_pwrite (f : seq byte) k l : ~~ nilp l -> size (pwrite zero f k l) = maxn (size f) (k + size l).
Proof. by rewrite /pwrite => /negbTE ->; rewrite size_mkseq. Qed.
Lemma nth_pwrite (f : seq byte) k l p : ~~ nilp l -> p < maxn (size f) (k + size l) ->
  nth zero (pwrite zero f k l) p = if k <= p < k + size l then nth zero l (p - k) else nth zero f p.
Proof. by rewrite /pwrite => /negbTE -> h; rewrite nth_mkseq. Qed.

(* the effect of one block *)
Lemma nth_block f k n p : k <= size content -> let l := take n (drop k content) in
  p < size (pwrite zero f k l) ->
  nth zero (pwrite zero f k l) p = nth zero content p \/ nth zero (pwrite zero f k l) p = nth zero f p.
Proof.
move=> hk l; case E: (nilp l); first by rewrite /pwrite E; right.
rewrite size_pwrite ?E // => hp; rewrite nth_pwrite ?E //; case: ifP => [/andP[h1 h2]|_]; last by right.
left; rewrite nth_take; last by move: h2; rewrite /l size_take; case: ifP; lia.
by rewrite nth_drop subnKC.
Qed.

Lemma block_partial f k n : k <= size content -> partial f -> partial (pwrite zero f k (take n (drop k content))).
Proof.
move=> hk [h1 h2]; set l := take _ _; have hl := size_chunk n hk.
split; first by rewrite /pwrite; case: ifP => // _; rewrite size_mkseq geq_max h1.
move=> p hp; case: (nth_block hk hp) => ->; first by left.
case: (ltnP p (size f)) => h; first exact: h2.
by right; rewrite nth_default.
Qed.
Lemma block_first f k n m : k <= size content -> has_first m f -> has_first m (pwrite zero f k (take n (drop k content))).
Proof.
move=> hk [h1 h2]; set l := take _ _.
have hs : size f <= size (pwrite zero f k l) by rewrite /pwrite; case: ifP => // _; rewrite size_mkseq leq_maxl.
split; first exact: leq_trans hs.
move=> p hp; case: (@nth_block f k n p hk) => [|->|->] //; first by apply: leq_trans hs; apply: leq_trans h1.
exact: h2.
Qed.
Lemma block_own f k n : has_first k f -> let l := take n (drop k content) in has_first (k + size l) (pwrite zero f k l).
Proof.
move=> [h1 h2] l; case E: (nilp l); first by rewrite /pwrite E (nilP E) addn0; split.
split; first by rewrite size_pwrite ?E // leq_maxr.
move=> p hp; rewrite nth_pwrite ?E //; last by rewrite leq_max hp orbT.
case: ifP => [/andP[g1 g2]|g]; last by apply: h2; move: g; rewrite hp andbT; lia.
rewrite nth_take; last by move: g2; rewrite /l size_take; case: ifP; lia.
by rewrite nth_drop subnKC.
Qed.

Lemma nth_upd (ps : seq stage) i s j : nth Killed (set_nth Killed ps i s) j = if j == i then s else nth Killed ps j.
Proof. by rewrite nth_set_nth. Qed.
Lemma size_upd (ps : seq stage) i s : size ps <= size (set_nth Killed ps i s).
Proof. by rewrite size_set_nth leq_maxr. Qed.
Lemma in_range (ps : seq stage) i : nth Killed ps i <> Killed -> i < size ps.
Proof. by move=> h; rewrite ltnNge; apply/negP => hi; case: h; rewrite nth_default. Qed.

Definition open_part (f : seq byte) (ps : seq stage) : Prop :=
  partial f /\ exists l, match nth Killed ps l with
      | Copying k => has_first k f
      | Returned => f = content
      | Killed => l < size ps
      | _ => False
      end.
Definition bounded (ps : seq stage) : Prop := forall i k, nth Killed ps i = Copying k -> k <= size content.
Definition closed_part (ps : seq stage) : Prop :=
  forall i, match nth Killed ps i with Looking | Asking | Failed | Killed => true | _ => false end.

Lemma bounded_upd ps i s : bounded ps -> (forall k, s = Copying k -> k <= size content) -> bounded (set_nth Killed ps i s).
Proof. by move=> h hs j k; rewrite nth_upd; case: eqP => _; [exact: hs|exact: h]. Qed.
Lemma closed_upd ps i s : closed_part ps -> (match s with Looking | Asking | Failed | Killed => true | _ => false end) ->
  closed_part (set_nth Killed ps i s).
Proof. by move=> h hs j; rewrite nth_upd; case: eqP => _; [exact: hs|exact: h]. Qed.
(* a process that has not opened the file, or has been killed, changes its stage *)
Lemma open_upd f ps i s : open_part f ps -> (match nth Killed ps i with Looking | Asking => True | Copying _ => s = Killed | _ => False end) ->
  open_part f (set_nth Killed ps i s).
Proof.
move=> [h1 [l hl]] hs; split=> //; exists l; rewrite nth_upd; case: eqP => [e|_]; last first.
  by move: hl; case: (nth _ _ _) => //; move/leq_trans; apply; exact: size_upd.
move: hl hs; rewrite e; case E: (nth _ _ _) => [||k|||] // _ ->.
by apply: leq_trans (size_upd _ _ _); apply: in_range; rewrite E.
Qed.

Lemma act_inv w ev : Inv w -> Inv (act w ev).
Proof.
case: w => d ps [hc]; rewrite [file _]/= => hf; have {}hc : bounded ps := hc.
have {}hf : (if d is Some f then open_part f ps else closed_part ps : Prop) := hf.
suff : bounded (procs (act (World d ps) ev)) /\
    if file (act (World d ps) ev) is Some f then open_part f (procs (act (World d ps) ev)) else closed_part (procs (act (World d ps) ev)).
  by case: (act _ _) => d' ps' [h1 h2]; split=> //; case: d' h2.
case: ev => [|i|i|i|i n|i|i]; rewrite [act _ _]/=.
- have nc j : nth Killed (rcons ps Looking) j = if j == size ps then Looking else nth Killed ps j.
    by rewrite nth_rcons; case: (ltngtP j (size ps)) => // h; rewrite nth_default // ltnW.
  split; first by move=> j k; rewrite /= nc; case: eqP => // _; exact: hc.
  case: d hf => [f|] /= hf; last by move=> j; rewrite nc; case: eqP => // _; exact: hf.
  case: hf => h1 [l hl]; split=> //; exists l; rewrite nc; case: eqP => [e|_]; last first.
    by move: hl; case: (nth _ _ _) => // /ltnW; rewrite size_rcons ltnS.
  by move: hl; rewrite e nth_default // ltnn.
- case E: (nth _ _ _) => [||k|||]; rewrite [file _]/= [procs _]/=; try (by split).
  split; first by apply: bounded_upd => // k; case: d {hf}.
  by case: d hf => [f|] /= hf; [apply: open_upd; rewrite ?E|apply: closed_upd].
- case E: (nth _ _ _) => [||k|||]; rewrite [file _]/= [procs _]/=; try (by split).
  split; first by apply: (bounded_upd hc).
  by case: d hf => [f|] /= hf; [apply: open_upd; rewrite ?E|apply: closed_upd].
- case E: (nth _ _ _) => [||k|||]; rewrite [file _]/= [procs _]/=; try (by split).
  split; first by apply: bounded_upd => // k [<-].
  by split; [split|exists i; rewrite nth_upd eqxx].
- case E: (nth _ _ _) => [||k|||]; rewrite [file _]/= [procs _]/=; try (by split).
  case: d hf => [f|] hf; last by split.
  have hk := hc _ _ E; set l := take _ _.
  split; first by apply: bounded_upd => // m [<-]; exact: size_chunk.
  case: hf => hp [j hj]; split; first exact: block_partial.
  exists j; rewrite nth_upd; case: eqP => [e|_].
    by apply: block_own; move: hj; rewrite e E.
  move: hj; case: (nth _ _ _) => [||m|||] //.
  + exact: block_first.
  + move=> ef; apply: has_all; first exact: block_partial.
    by apply: block_first => //; rewrite ef; split.
  by move/leq_trans; apply; exact: size_upd.
- case E: (nth _ _ _) => [||k|||]; rewrite [file _]/= [procs _]/=; try (by split).
  case: eqP => ek; last by split.
  split; first by apply: (bounded_upd hc).
  case: d hf => [f|] /= hf; last by have := hf i; rewrite E.
  case: hf => hp [j hj]; split=> //; exists j; rewrite nth_upd; case: eqP => [e|_].
    by apply: has_all => //; move: hj; rewrite e E ek.
  by move: hj; case: (nth _ _ _) => //; move/leq_trans; apply; exact: size_upd.
case E: (nth _ _ _) => [||k|||]; rewrite [file _]/= [procs _]/=; try (by split).
all: split; first by apply: (bounded_upd hc).
all: by case: d hf => [f|] /= hf; [apply: open_upd; rewrite ?E|apply: closed_upd => //; have := hf i; rewrite E].
Qed.

Lemma run_inv evs : Inv (run evs).
Proof.
elim/last_ind: evs => [|evs ev IH].
  by split=> [i k|i] /=; rewrite nth_nil.
by rewrite /DlConc.run foldl_rcons; exact: act_inv.
Qed.

(* Whatever the interleaving: the file is never longer than the content of the URL, and each of its
   bytes is that of the content or zero. *)
Theorem C67_never_wrong evs f : file (run evs) = Some f -> partial f.
Proof. by case: (run_inv evs) => _ h e; move: h; rewrite e => -[]. Qed.

(* All calls have come to an end, at least one without an exception, and the others got no answer
   from the server: the file is complete, though the calls overlapped. *)
Theorem C67_all_done evs : let w := run evs in
  (forall i, i < size (procs w) -> stage_of w i = Returned \/ stage_of w i = Failed) ->
  (exists2 i, i < size (procs w) & stage_of w i = Returned) -> file w = Some content.
Proof.
move=> w hd [i hi ri]; have [_] := run_inv evs; rewrite -/w.
case: (file w) => [f [_ [l hl]]|/(_ i)]; last by rewrite ri.
case: (ltnP l (size (procs w))) => h; last by move: hl; rewrite nth_default // ltnNge h.
by case: (hd l h) hl => -> // ->.
Qed.

(* A call during which no other process does anything is a call of C63. *)
Theorem C67_alone evs url (d : Download.folder byte) : let w := run evs in let n := size (procs w) in
  let w' := run (evs ++ [:: Call; Look n; Open n; Copy n (size content); Close n]) in
  let r := Download.download_data (Download.Env (fun=> Some content) None) url d in
  Download.filename_of url <> EmptyString -> Download.file d (Download.filename_of url) = file w ->
  [/\ stage_of w' n = Returned, r.2 = Download.Returns & Download.file r.1 (Download.filename_of url) = file w'].
Proof.
move=> w n w' r n0 e; rewrite /w' /DlConc.run foldl_cat -/(run evs) -/w /r /Download.download_data [Download.file _ _]/= e.
have nn ps s : nth Killed (set_nth Killed ps n s) n = s by rewrite nth_upd eqxx.
have n1 : nth Killed (rcons (procs w) Looking) n = Looking by rewrite nth_rcons ltnn eqxx.
have E1 : foldl act w [:: Call; Look n; Open n; Copy n (size content); Close n] =
   foldl act (act (World (file w) (rcons (procs w) Looking)) (Look n)) [:: Open n; Copy n (size content); Close n] by [].
rewrite E1 {E1}; set W := World _ _; set p1 := procs W.
have E2 : act W (Look n) = World (file w) (set_nth Killed p1 n (if file w is Some _ then Returned else Asking)) by rewrite /= n1.
rewrite E2 {E2}; case E: (file w) => [f|].
  set P := set_nth _ _ _ _; have h : nth Killed P n = Returned by rewrite /P nn.
  by do 4 rewrite /= ?h; rewrite e E.
set P := set_nth _ _ _ _; have h : nth Killed P n = Asking by rewrite /P nn.
have E3 : act (World None P) (Open n) = World (Some [::]) (set_nth Killed P n (Copying 0)) by rewrite /= h.
rewrite -cat1s foldl_cat; have -> : foldl act (World None P) [:: Open n] = _ := E3; set P2 := set_nth _ _ _ _.
have h2 : nth Killed P2 n = Copying 0 by rewrite /P2 nn.
have E4 : act (World (Some [::]) P2) (Copy n (size content)) =
  World (Some (pwrite zero [::] 0 content)) (set_nth Killed P2 n (Copying (size content))).
  by rewrite /= h2 drop0 take_size add0n.
rewrite -cat1s foldl_cat; have -> : foldl act (World (Some [::]) P2) [:: Copy n (size content)] = _ := E4; set P3 := set_nth _ _ _ _.
have h3 : nth Killed P3 n = Copying (size content) by rewrite /P3 nn.
rewrite [foldl _ _ _]/= h3 eqxx [procs _]/= nn /Download.urlretrieve [Download.answer _ _]/=.
case: String.eqb_spec => // _; rewrite [Download.file _ _]/= String.eqb_refl; split=> //.
rewrite /pwrite; case: nilP => [->|_] //; congr Some.
apply: (@eq_from_nth _ zero) => [|i hi]; first by rewrite size_mkseq add0n max0n.
by rewrite nth_mkseq add0n ?max0n // hi subn0.
Qed.
End C67.
Print Assumptions C67_never_wrong.
Print Assumptions C67_alone.
Print Assumptions C67_all_done.

(* ------------------------------------------------------------------ *)
(* two overlapping calls; the second one opens the file when the first has written two bytes *)
Definition ex_evs : seq event := [:: Call; Call; Look 0; Look 1; Open 0; Copy 0 2; Open 1; Call; Look 2; Call; Refuse 3;
  Copy 0 2; Copy 1 5; Close 0; Copy 1 5; Close 1].
Example ex_done : let w := run 0 [:: 1; 2; 3] ex_evs in
  file w = Some [:: 1; 2; 3] /\ procs w = [:: Returned; Returned; Returned; Looking].
Proof. by []. Qed.
Definition ex_evs2 : seq event := [:: Call; Call; Call; Look 0; Look 1; Look 2; Open 0; Copy 0 2; Refuse 2; Open 1;
  Copy 0 2; Copy 1 5; Close 0; Close 1].
Example ex_done2 : let w := run 0 [:: 1; 2; 3] ex_evs2 in procs w = [:: Returned; Returned; Failed].
Proof. by []. Qed.
Example ex_all : file (run 0 [:: 1; 2; 3] ex_evs2) = Some [:: 1; 2; 3].
Proof. by apply: C67_all_done; [case=> [|[|[|i]]] //; [left|left|right]|exists 0]. Qed.

(* "when download_data returns, the file is complete" is false, though nobody fails: of a call that
   finds the file of another call that is still running, *)
Definition unbroken (ps : seq stage) : Prop := forall i, i < size ps -> nth Killed ps i <> Killed /\ nth Killed ps i <> Failed.
Theorem C67_seen_refuted : exists (content : seq nat) evs i, let w := run 0 content evs in
  [/\ i < size (procs w), nth Killed (procs w) i = Returned, unbroken (procs w) & file w = Some (take 1 content)].
Proof.
exists [:: 1; 2; 3], [:: Call; Look 0; Open 0; Copy 0 1; Call; Look 1], 1; split=> //.
by case=> [|[|i]].
Qed.
Print Assumptions C67_seen_refuted.

(* and of a call that has itself downloaded everything *)
Theorem C67_own_refuted : exists (content : seq nat) evs, let w := run 0 content evs in
  [/\ size (procs w) = 2, nth Killed (procs w) 0 = Returned, nth Killed (procs w) 1 = Copying 0, 0 \notin content & file w = Some [:: 0; 0; 3]].
Proof. by exists [:: 1; 2; 3], [:: Call; Call; Look 0; Look 1; Open 0; Copy 0 2; Open 1; Copy 0 1; Close 0]. Qed.
Print Assumptions C67_own_refuted.

(* A killed call can also leave such a file for good: every later call returns at once *)
Theorem C67_zeros_stay_refuted : exists (content : seq nat) evs, let w := run 0 content evs in
  [/\ 0 \notin content, nth Killed (procs w) 0 = Returned, file w = Some [:: 0; 0; 3] &
    forall evs', all (fun ev => match ev with Call | Look _ => true | _ => false end) evs' ->
      file (foldl (act 0 content) w evs') = Some [:: 0; 0; 3]].
Proof.
exists [:: 1; 2; 3], [:: Call; Call; Look 0; Look 1; Open 0; Copy 0 2; Open 1; Copy 0 1; Close 0; Kill 1]; split=> //.
set w := run _ _ _; have : file w = Some [:: 0; 0; 3] by [].
move: w => w hw evs; elim: evs w hw => //= ev evs IH w hw /andP[h /IH]; apply.
by case: ev h => // [i] _ /=; case: (nth _ _ _).
Qed.
Print Assumptions C67_zeros_stay_refuted.
