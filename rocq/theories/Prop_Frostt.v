(* Property C69: reading FROSTT files, and their cache. *)
From Coq Require Import String Ascii DecimalString DecimalNat.
From mathcomp Require Import all_ssreflect all_algebra.
From mathcomp Require Import zify.
From Verif Require Import Py Nd Tensor Spec Download Frostt FrosttSpec.
Set Implicit Arguments. Unset Strict Implicit. Unset Printing Implicit Defensive.
Local Open Scope string_scope.
Import GRing.Theory.

Lemma sapp0 s : s ++ "" = s. Proof. by elim: s => //= c s ->. Qed.
Lemma sappA a b c : a ++ (b ++ c) = (a ++ b) ++ c. Proof. by elim: a => //= x a ->. Qed.

Lemma split_plain p w s : plain w -> split_sp p (w ++ s) = split_sp (p ++ w) s.
Proof.
elim: w p => [|c w IH] p /=; first by rewrite sapp0.
by case/and3P=> /negbTE-> _ /IH ->; rewrite -sappA.
Qed.
Lemma readlines_plain p w s : plain w -> readlines p (w ++ s) = readlines (p ++ w) s.
Proof.
elim: w p => [|c w IH] p /=; first by rewrite sapp0.
by case/and3P=> _ /negbTE-> /IH ->; rewrite -sappA.
Qed.

Section P.
Variable R : comRingType.
Variables (itxt : nat -> string) (ftxt : R -> string).
Variables (int_of : string -> res int) (float_of : string -> res R).
Hypothesis rb : reads_back itxt ftxt int_of float_of.
Notation line := (line_of itxt ftxt).
Notation process := (process_frostt int_of float_of).

Lemma split_line row v : split_sp "" (line row v) = rcons [seq itxt n.+1 | n <- row] (ftxt v ++ String newline "").
Proof.
elim: row => [|n row IH] /=; last first.
  by rewrite split_plain ?(rb.1 n).1 //= IH.
by rewrite split_plain ?(rb.2 v).1 //= .
Qed.
Lemma readlines_line p row v s : readlines p (line row v ++ s) = (p ++ line row v) :: readlines "" s.
Proof.
elim: row p => [|n row IH] p /=.
  by rewrite -sappA readlines_plain ?(rb.2 v).1 //= sappA.
rewrite -sappA readlines_plain ?(rb.1 n).1 //= IH; congr (_ :: _).
by rewrite -!sappA.
Qed.
Lemma readlines_lines (rvs : seq (seq nat * R)) : readlines "" (foldr String.append "" [seq line p.1 p.2 | p <- rvs]) = [seq line p.1 p.2 | p <- rvs].
Proof. by elim: rvs => //= p rvs IH; rewrite readlines_line IH. Qed.

Local Close Scope string_scope.
Lemma set_nth_mid (T : Type) (x : T) (P A : seq T) (a y : T) : set_nth x (P ++ a :: A) (size P) y = rcons P y ++ A.
Proof. by elim: P => //= b P ->. Qed.

Lemma mapM_ints row : mapM (fun w => do n <- int_of w; Ok (n - 1)%R) [seq itxt n.+1 | n <- row] = Ok [seq Posz n | n <- row].
Proof.
elim: row => //= n row ->; rewrite (rb.1 n).2 /=; congr (Ok (_ :: _)).
by rewrite -addn1 PoszD addrK.
Qed.

Lemma read_lineP dim P Q a (A : seq (seq int)) v (V : seq R) row x : size P = size Q -> size row = dim ->
  read_line int_of float_of dim (P ++ a :: A, Q ++ v :: V) (size P, line row x) = Ok (rcons P [seq Posz n | n <- row] ++ A, rcons Q x ++ V).
Proof.
move=> e sr; rewrite /read_line split_line size_rcons /= -cats1 take_size_cat // mapM_ints /=.
rewrite /set_row size_cat /= leqNgt -addSnnS leq_addr /= size_map sr eqxx /=.
rewrite nth_cat ltnn subnn /= (rb.2 x).2 /= size_cat /= e leqNgt -addSnnS leq_addr /=.
by rewrite -e set_nth_mid e set_nth_mid.
Qed.

Lemma read_lines (rvs : seq (seq nat * R)) dim P Q (A : seq (seq int)) (V : seq R) : size P = size Q -> size A = size V ->
  all (fun p => size p.1 == dim) rvs ->
  foldM (read_line int_of float_of dim) (P ++ A, Q ++ V) (zip (iota (size P) (size rvs)) [seq line p.1 p.2 | p <- rvs]) =
  if (size rvs <= size A)%N
  then Ok (P ++ [seq [seq Posz n | n <- p.1] | p <- rvs] ++ drop (size rvs) A, Q ++ [seq p.2 | p <- rvs] ++ drop (size rvs) V)
  else Err IndexError.
Proof.
elim: rvs P Q A V => [|[row x] rvs IH] P Q A V e eA /=; first by rewrite !drop0.
case/andP=> /eqP sr al; case: A V eA => [|a A] [|v V] //=.
  move=> _; rewrite /read_line split_line size_rcons /= -cats1 take_size_cat // mapM_ints /=.
  by rewrite /set_row size_cat addn0 leqnn.
case=> eA; rewrite read_lineP //=.
have := IH (rcons P [seq Posz n | n <- row]) (rcons Q x) A V; rewrite !size_rcons e ltnS => -> //.
by case: ifP => // _; rewrite !cat_rcons.
Qed.

(* the general form: any number nnz of entries announced *)
Lemma process_text s inds vals nnz : wf_gen false (Sparse s inds vals) -> (0 < size vals)%N ->
  process (text_of itxt ftxt inds vals) nnz s =
  if (size vals <= nnz)%N
  then Ok (saved_of s [seq row ++ nseq (nnz - size vals) 0%N | row <- inds] (vals ++ nseq (nnz - size vals) 0%R))
  else Err IndexError.
Proof.
rewrite /= andbT => w v0; case/and3P: w => /eqP si /allP ai _.
set n := size vals; have hrow k : (k < size s)%N -> size (nth [::] inds k) = n.
  by rewrite -si => hk; apply/eqP/ai; exact: mem_nth.
pose rvs := [seq (column inds k, nth 0%R vals k) | k <- iota 0 n].
have er : text_of itxt ftxt inds vals = foldr String.append EmptyString [seq line p.1 p.2 | p <- rvs].
  rewrite /rvs -map_comp. reflexivity.
have sr : size rvs = n by rewrite size_map size_iota.
rewrite /process_frostt er readlines_lines // size_map sr.
have -> : [seq line p.1 p.2 | p <- rvs] = line (column inds 0) (nth 0%R vals 0) :: behead [seq line p.1 p.2 | p <- rvs].
  by rewrite /rvs; move: (v0 : (0 < n)%N); case: (n).
set D := (size _).-1; have eD : D = size s.
  by rewrite /D split_line // size_rcons size_map size_map.
have -> : line (column inds 0) (nth 0%R vals 0) :: behead [seq line p.1 p.2 | p <- rvs] = [seq line p.1 p.2 | p <- rvs].
  by rewrite /rvs; move: (v0 : (0 < n)%N); case: (n).
rewrite eD; have := @read_lines rvs (size s) [::] [::] (nseq nnz (nseq (size s) 0%R)) (nseq nnz 0%R) erefl.
rewrite !size_nseq sr /= => ->; last 2 first.
- by [].
- by rewrite all_map; apply/allP => k _ /=; rewrite size_map si.
case: leqP => //= hn; rewrite !drop_nseq; congr (Ok (Saved _ _ _)); last first.
  congr (_ ++ _); rewrite /rvs -map_comp; apply: (@eq_from_nth _ 0%R); rewrite size_map size_iota // => k hk.
  by rewrite (nth_map 0%N) ?size_iota // nth_iota.
apply: (@eq_from_nth _ [::]); rewrite !size_map ?size_iota //= -?si => k hk.
rewrite (nth_map 0%N) ?size_iota // nth_iota // add0n.
rewrite (nth_map [::]) ?size_map // (nth_map [::]) // map_cat map_cat; congr (_ ++ _); last first.
  by rewrite !map_nseq nth_nseq hk.
apply: (@eq_from_nth _ 0%R); rewrite !size_map ?size_iota ?hrow -?si // => j hj.
rewrite -!map_comp (nth_map 0%N) ?size_iota // nth_iota //= (nth_map 0%N) ?hrow -?si //.
  by rewrite (nth_map 0%N) ?hrow -?si // add0n (nth_map [::]).
by rewrite size_map.
Qed.

(* process_frostt_tensor gives exactly the tensor in the file *)
Theorem C69_process s inds vals : wf (Sparse s inds vals) -> (0 < size vals)%N ->
  process (text_of itxt ftxt inds vals) (size vals) s = Ok (saved_of s inds vals).
Proof.
rewrite /wf /= => /andP[w _] v0; rewrite process_text ?leqnn /= ?w //; congr (Ok _).
rewrite subnn /= cats0; congr saved_of; rewrite -[RHS]map_id; apply/eq_map => x; exact: cats0.
Qed.

(* a file with more entries than announced, or with none: IndexError *)
Theorem C69_process_errors s inds vals nnz : wf_gen false (Sparse s inds vals) ->
  ((0 < size vals)%N -> (nnz < size vals)%N -> process (text_of itxt ftxt inds vals) nnz s = Err IndexError) /\
  process EmptyString nnz s = Err IndexError.
Proof. by move=> w; split=> // v0 h; rewrite process_text // leqNgt h. Qed.

(* a file with fewer entries than announced: zeros at the coordinate (0, ..., 0) are added, which does not
   change the tensor that is meant ... *)
Theorem C69_too_few s inds vals nnz : wf_gen false (Sparse s inds vals) -> (0 < size vals <= nnz)%N ->
  exists inds' vals', [/\ process (text_of itxt ftxt inds vals) nnz s = Ok (saved_of s inds' vals'), size vals' = nnz &
    forall i, den (Sparse s inds' vals') i = den (Sparse s inds vals) i].
Proof.
move=> w /andP[v0 hn]; eexists; eexists; split; first by rewrite process_text // hn.
  by rewrite size_cat size_nseq subnKC.
move=> i /=; rewrite size_cat size_nseq (@big_cat_nat _ _ _ (size vals)) ?leq_addr //= [X in (_ + X)%R]big1_seq ?addr0.
  move: w => /=; rewrite andbT; case/and3P => _ /allP ai _.
  apply: eq_big_nat => k /andP[_ hk]; rewrite nth_cat hk; congr ((_ == _)%:R * _)%R.
  rewrite /column -map_comp; apply/eq_in_map => row /ai/eqP sr /=; by rewrite nth_cat sr hk.
move=> k /andP[_]; rewrite mem_index_iota => /andP[hk _].
by rewrite nth_cat ltnNge hk /= nth_nseq if_same mulr0.
Qed.
End P.

(* ... but to_numpy, where the last entry with a coordinate counts, loses the entry at (0, ..., 0) *)
Theorem C69_too_few_refuted itxt (ftxt : rat -> string) int_of float_of : reads_back itxt ftxt int_of float_of ->
  let inds := [:: [:: 0; 1]; [:: 0; 1]]%N in let vals := [:: 5%:R; 7%:R]%R : seq rat in
  exists inds' vals' a, [/\ wf (Sparse [:: 2; 2]%N inds vals),
    process_frostt int_of float_of (text_of itxt ftxt inds vals) 3 [:: 2; 2]%N = Ok (saved_of [:: 2; 2]%N inds' vals'),
    to_numpy (Sparse [:: 2; 2]%N inds' vals') = Ok a, get a [:: 0; 0]%N = 0%R &
    den (Sparse [:: 2; 2]%N inds vals) [:: 0; 0]%N = 5%:R%R].
Proof.
move=> rb inds vals; have w : wf (Sparse [:: 2; 2]%N inds vals) by [].
have wg : wf_gen false (Sparse [:: 2; 2]%N inds vals) by [].
do 3 eexists; split; first exact: w.
- by rewrite (process_text rb 3 wg).
- by [].
- by [].
by rewrite /= unlock /= !mul1r !mul0r !addr0.
Qed.

(* ---- file names ---- *)
Lemma prefixP a s : String.prefix a s = true -> exists q, s = (a ++ q)%string.
Proof.
elim: a s => [|c a IH] s /=; first by exists s.
case: s => [|c' s] /=; first by []. case: (Ascii.ascii_dec c c') => e1 h; last by [].
by have [q e2] := IH s h; exists q; rewrite e1 e2.
Qed.
Lemma before_gzP x : before_gz x = x \/ exists q, x = (before_gz x ++ ".gz" ++ q)%string.
Proof.
elim: x => [|c x IH]; first by left.
have -> : before_gz (String c x) = if String.prefix ".gz" (String c x) then ""%string else String c (before_gz x) by [].
case P: (String.prefix _ _); first by right; have [q e] := prefixP P; exists q.
by case: IH => [->|[q e]]; [left|right; exists q; rewrite {1}e].
Qed.
Lemma npz_not x : npz_of x <> x.
Proof.
rewrite /npz_of; have inj p a b : (p ++ a)%string = (p ++ b)%string -> a = b by elim: p => //= c p IH [].
case: (before_gzP x) => [->|[q e]].
  by rewrite -{2}(sapp0 x) => /inj.
by rewrite {2}e => /inj.
Qed.

Section Cache.
Variable R : comRingType.
Variables (int_of : string -> res int) (float_of : string -> res R).
Variable byte : Type.
Variables (gunzip : seq byte -> res string) (savez : saved R -> seq byte) (load : seq byte -> res (saved R)).
Notation get_frostt := (get_frostt int_of float_of gunzip savez load).
Notation fafter := (fafter int_of float_of gunzip savez load).
Notation folder := (folder byte).
Notation calls := (fcalls byte).

Lemma dl_file e url (d : folder) : let d' := (download_data e url d).1 in
  (forall n c, file d n = Some c -> file d' n = Some c) /\ (forall n, n <> filename_of url -> file d' n = file d n).
Proof.
rewrite /download_data [file (Folder _ _)]/=; case E: (file d _) => [c0|] //=.
rewrite /urlretrieve; case: (answer _ _) => [a|] //; case: (String.eqb _ EmptyString) => //.
have H x : (forall n c, file d n = Some c -> file (write (Folder true (file d)) (filename_of url) x) n = Some c) /\
  (forall n, n <> filename_of url -> file (write (Folder true (file d)) (filename_of url) x) n = file d n).
  split=> n; first by move=> c h /=; case: String.eqb_spec => // en; move: h; rewrite en E.
  by move=> nn /=; case: String.eqb_spec.
by case: (stop e) => [k|] /=; exact: H.
Qed.

Lemma dl_there e url (d : folder) : (download_data e url d).2 = Returns -> exists c, file (download_data e url d).1 (filename_of url) = Some c.
Proof.
rewrite /download_data [file (Folder _ _)]/=; case E: (file d _) => [c0|] /=; first by exists c0.
rewrite /urlretrieve; case: (answer _ _) => [a|] //; case: (String.eqb _ EmptyString) => //.
by case: (stop e) => [k|] //= _; rewrite String.eqb_refl; eexists.
Qed.

(* no call changes a file that exists *)
Lemma gf_keep e url nnz s (d : folder) n c : file d n = Some c -> file (get_frostt e url nnz s d).1 n = Some c.
Proof.
rewrite /Frostt.get_frostt; case E: (file d (npz_of _)) => [c0|] // h.
have [hk ho] := dl_file (net e) url d; case D: (download_data _ _ _) hk ho => [d' r] /= hk ho.
case: r D => D /=; last exact: hk.
case F: (file d' _) => [c1|] /=; last exact: hk.
case: (do text <- _; _) => [t|x] /=; last exact: hk.
have H x : file (write d' (npz_of (filename_of url)) x) n = Some c.
  by rewrite /=; case: String.eqb_spec => [en|_]; [move: h; rewrite en E|exact: hk].
by case: (stop_save e) => [k|] /=; exact: H.
Qed.
Lemma fa_keep (h : calls) (d : folder) n c : file d n = Some c -> file (fafter h d) n = Some c.
Proof. by elim: h d => //= q h IH d hd; apply: IH; exact: gf_keep. Qed.

(* calls write two files only *)
Lemma gf_other e url nnz s (d : folder) n : n <> filename_of url -> n <> npz_of (filename_of url) ->
  file (get_frostt e url nnz s d).1 n = file d n.
Proof.
rewrite /Frostt.get_frostt => n1 n2; case E: (file d (npz_of _)) => [c0|] //.
have [hk ho] := dl_file (net e) url d; case D: (download_data _ _ _) hk ho => [d' r] /= hk ho.
case: r D => D /=; last exact: ho.
case F: (file d' _) => [c1|] /=; last exact: ho.
case: (do text <- _; _) => [t|x] /=; last exact: ho.
have H x : file (write d' (npz_of (filename_of url)) x) n = file d n.
  by rewrite /=; case: String.eqb_spec => [en|_]; [case: n2|exact: ho].
by case: (stop_save e) => [k|] /=; exact: H.
Qed.

(* Once a call has returned a tensor, every later call for that URL returns the same, whatever happened in
   between and whatever the network does, also with another nnz or shape *)
Theorem C69_cached e url nnz s d d' t (h : calls) e' nnz' s' : npz_contract savez load ->
  get_frostt e url nnz s d = (d', Ok t) ->
  get_frostt e' url nnz' s' (fafter h d') = (fafter h d', Ok t).
Proof.
move=> nc; rewrite /Frostt.get_frostt; case E: (file d (npz_of _)) => [c0|].
  by case=> ed el; rewrite -ed (fa_keep h E) el.
have [hk ho] := dl_file (net e) url d; case D: (download_data _ _ _) hk ho => [d1 r] /= hk ho.
case: r D => D //=; case F: (file d1 _) => [c1|] //=.
case: (do text <- _; _) => [t1|x] //=.
case: (stop_save e) => [k|] //= -[<- <-].
have hw : file (write d1 (npz_of (filename_of url)) (savez t1)) (npz_of (filename_of url)) = Some (savez t1).
  by rewrite /= String.eqb_refl.
by rewrite (fa_keep h hw) (nc t1).1.
Qed.

(* A call is about this data set if it reads or writes one of its two files *)
Definition about (url : string) (c : fenv byte * string * nat * seq nat) : bool :=
  let files u := [:: filename_of u; npz_of (filename_of u)] in
  has (fun n => has (String.eqb n) (files url)) (files c.1.1.2).
(* all calls about the data set are for its URL, with its nnz and shape, and the server sends gz or nothing *)
Definition honest (url : string) (gz : seq byte) (nnz : nat) (s : seq nat) (c : fenv byte * string * nat * seq nat) : Prop :=
  about url c -> [/\ c.1.1.2 = url, c.1.2 = nnz, c.2 = s & answer (net c.1.1.1) url = Some gz \/ answer (net c.1.1.1) url = None].
(* no download and no saving of it was interrupted *)
Definition uninterrupted (url : string) (c : fenv byte * string * nat * seq nat) : Prop :=
  about url c -> stop (net c.1.1.1) = None /\ stop_save c.1.1.1 = None.

Section Honest.
Variables (itxt : nat -> string) (ftxt : R -> string).
Hypothesis rb : reads_back itxt ftxt int_of float_of.
Hypothesis nc : npz_contract savez load.
Variables (url : string) (gz : seq byte) (s : seq nat) (inds : seq (seq nat)) (vals : seq R).
Hypothesis w : wf (Sparse s inds vals).
Hypothesis v0 : (0 < size vals)%N.
Hypothesis hgz : gz_file gunzip gz (text_of itxt ftxt inds vals).
Notation X := (saved_of s inds vals).
Notation nnz := (size vals).
Notation name := (filename_of url).
Notation npz := (npz_of (filename_of url)).

Definition good (ok : bool) (d : folder) : Prop :=
  (file d name = None \/ exists k, file d name = Some (take k gz) /\ (ok -> k = size gz)) /\
  (file d npz = None \/ exists k, file d npz = Some (take k (savez X)) /\ (ok -> k = size (savez X))).

Lemma dl_good ok e (d : folder) : (file d name = None \/ exists k, file d name = Some (take k gz) /\ (ok -> k = size gz)) ->
  answer e url = Some gz \/ answer e url = None -> (ok -> stop e = None) ->
  let d' := (download_data e url d).1 in
  (file d' name = None \/ exists k, file d' name = Some (take k gz) /\ (ok -> k = size gz)).
Proof.
move=> hd ha hs; rewrite /download_data [file (Folder _ _)]/=; case E: (file d name) => [c0|] /=.
  by right; case: hd => [h|[k [h h2]]]; [rewrite h in E|exists k].
rewrite /urlretrieve; case A: (answer e url) => [a|]; last by left.
have -> : a = gz by case: ha; rewrite A => // -[].
case: (String.eqb _ EmptyString); first by left.
case: (stop e) hs => [k|] hs /=; rewrite String.eqb_refl; right.
  by exists k; split=> // /hs.
by exists (size gz); rewrite take_size.
Qed.

(* one call for the data set *)
Lemma gf_good ok e (d : folder) : good ok d -> answer (net e) url = Some gz \/ answer (net e) url = None ->
  (ok -> stop (net e) = None /\ stop_save e = None) ->
  good ok (get_frostt e url nnz s d).1 /\
  (forall t, (get_frostt e url nnz s d).2 = Ok t -> t = X) /\
  (ok -> answer (net e) url = Some gz -> name <> EmptyString -> (get_frostt e url nnz s d).2 = Ok X).
Proof.
move=> [g1 g2] ha hs; rewrite /Frostt.get_frostt; case E: (file d npz) => [c0|].
  split=> //=; case: g2 => [h|[k [h hk]]]; first by rewrite h in E.
  move: h; rewrite E => -[->]; split.
    move=> t; case: (ltnP k (size (savez X))) => hk2; first by have [x ->] := (nc X).2 k hk2.
    by rewrite take_oversize // (nc X).1 => -[].
  by move=> /hk-> _ _; rewrite take_size (nc X).1.
have [hk ho] := dl_file (net e) url d.
have gd := dl_good g1 ha (fun o => (hs o).1).
have nn : npz <> name.
  exact: npz_not.
have E1 : file (download_data (net e) url d).1 npz = None by rewrite (ho _ nn).
have dr : answer (net e) url = Some gz -> ok -> name <> EmptyString -> (download_data (net e) url d).2 = Returns.
  move=> A o n0; rewrite /download_data [file (Folder _ _)]/=; case: (file d name) => [c0|] //=.
  by rewrite /urlretrieve A; case: String.eqb_spec => // _; rewrite (hs o).1.
have dt := @dl_there (net e) url d.
case D: (download_data _ _ _) hk ho gd E1 dr dt => [d' r] /= hk ho gd E1 dr dt.
case: r D dr dt => D dr dt /=; last by split; [split=> //; left|split=> // o A n0; have := dr A o n0].
have [c1 F] := dt erefl; rewrite F; case: gd => [|[k [F' hk']]]; first by rewrite F.
have ec : c1 = take k gz by move: F'; rewrite F => -[].
have gd' : good ok d' by split; [right; exists k; split=> //; rewrite -ec|left].
case: (ltnP k (size gz)) => hk2.
  have nk : ok -> False by move=> /hk' e0; move: hk2; rewrite e0 ltnn.
  have [x ex] : exists x, (do text <- gunzip c1; process_frostt int_of float_of text nnz s) = Err x.
    by rewrite ec; case: (hgz.2 k hk2) => [->|[x ->]]; eexists.
  by rewrite ex /=; split=> //; split=> // /nk.
rewrite ec take_oversize // hgz.1 /= C69_process //.
have nw x : file (write d' npz x) name = file d' name.
  by rewrite /=; case: String.eqb_spec => // en; case: nn; exact: esym en.
have gw x : (exists k, x = take k (savez X) /\ (ok -> k = size (savez X))) -> good ok (write d' npz x).
  case=> k3 [-> h3]; split; first by rewrite nw; right; exists k; rewrite F ec.
  by right; exists k3; rewrite /= String.eqb_refl.
case SS: (stop_save e) => [k3|] /=.
  split; first by apply: gw; exists k3; split=> // o; case: (hs o) => _; rewrite SS.
  by split=> // o; case: (hs o) => _; rewrite SS.
split; first by apply: gw; exists (size (savez X)); rewrite take_size.
by split=> // t [].
Qed.

Lemma not_about (c : fenv byte * string * nat * seq nat) : about url c = false ->
  [/\ name <> filename_of c.1.1.2, name <> npz_of (filename_of c.1.1.2),
      npz <> filename_of c.1.1.2 & npz <> npz_of (filename_of c.1.1.2)].
Proof.
rewrite /about /= !orbF; case/norP => /norP[h1 h2] /norP[h3 h4].
by split=> e; [move: h1|move: h3|move: h2|move: h4]; rewrite -e String.eqb_refl.
Qed.

Lemma fa_good ok (h : calls) (d : folder) : good ok d ->
  (forall c, List.In c h -> honest url gz nnz s c) -> (ok -> forall c, List.In c h -> uninterrupted url c) ->
  good ok (fafter h d).
Proof.
elim: h d => //= c h IH d g hh hu; apply: IH; last 2 first.
- by move=> c' hc; apply: hh; right.
- by move=> o c' hc; apply: (hu o); right.
case A: (about url c).
  have [eu en es ha] := hh c (or_introl erefl) A; rewrite eu en es.
  by have [] := gf_good g ha (fun o => hu o c (or_introl erefl) A).
have [n1 n2 n3 n4] := not_about A; case: g => g1 g2.
by split; rewrite gf_other.
Qed.

(* Whatever calls were made before, interrupted or not: a call never returns a wrong tensor *)
Theorem C69_never_wrong (h : calls) e t :
  (forall c, List.In c (rcons h (e, url, nnz, s)) -> honest url gz nnz s c) ->
  (get_frostt e url nnz s (fafter h (empty_disk byte))).2 = Ok t -> t = X.
Proof.
move=> hh; have g : good false (fafter h (empty_disk byte)).
  by apply: fa_good; [split; left|move=> c hc; apply: hh; rewrite -cats1; apply: List.in_or_app; left|].
have ab : about url (e, url, nnz, s) by rewrite /about /= String.eqb_refl.
have hin : List.In (e, url, nnz, s) (rcons h (e, url, nnz, s)) by rewrite -cats1; apply: List.in_or_app; right; left.
have [_ _ _ ha] := hh _ hin ab.
by have [_ [h1 _]] := @gf_good false e _ g ha (fun o => False_ind _ (Bool.diff_false_true o)); apply: h1.
Qed.

(* Without interruptions, every call with an answer from the server returns the tensor *)
Theorem C69_complete (h : calls) e : name <> EmptyString ->
  (forall c, List.In c (rcons h (e, url, nnz, s)) -> honest url gz nnz s c /\ uninterrupted url c) ->
  answer (net e) url = Some gz ->
  (get_frostt e url nnz s (fafter h (empty_disk byte))).2 = Ok X.
Proof.
move=> n0 hh ha; have hin c : List.In c h -> List.In c (rcons h (e, url, nnz, s)).
  by move=> hc; rewrite -cats1; apply: List.in_or_app; left.
have g : good true (fafter h (empty_disk byte)).
  by apply: fa_good; [split; left|move=> c hc; exact: (hh c (hin c hc)).1|move=> _ c hc; exact: (hh c (hin c hc)).2].
have ab : about url (e, url, nnz, s) by rewrite /about /= String.eqb_refl.
have hin2 : List.In (e, url, nnz, s) (rcons h (e, url, nnz, s)) by rewrite -cats1; apply: List.in_or_app; right; left.
have hu := (hh _ hin2).2 ab.
by have [_ [_ h1]] := @gf_good true e _ g (or_introl ha) (fun=> hu); apply: h1.
Qed.

(* An interrupted call is not repaired: if the download or the saving stops early, every later call fails *)
Theorem C69_interrupted_refuted e (h : calls) e' nnz' s' : name <> EmptyString -> answer (net e) url = Some gz ->
  (exists2 k, stop (net e) = Some k & (k < size gz)%N) \/
  (stop (net e) = None /\ exists2 k, stop_save e = Some k & (k < size (savez X))%N) ->
  (forall c, List.In c h -> about url c -> c.1.1.2 = url) ->
  exists x, (get_frostt e' url nnz' s' (fafter h (get_frostt e url nnz s (empty_disk byte)).1)).2 = Err x.
Proof.
move=> n0 ha hi hu; set d := (get_frostt _ _ _ _ (empty_disk byte)).1.
have nn : npz <> name by exact: npz_not.
pose bad (d : folder) := (exists2 k, file d npz = Some (take k (savez X)) & (k < size (savez X))%N) \/
  (file d npz = None /\ exists2 k, file d name = Some (take k gz) & (k < size gz)%N).
have nb x : String.eqb name EmptyString = false by case: String.eqb_spec.
have hd : bad d.
  rewrite /d /Frostt.get_frostt /= /download_data /= /urlretrieve ha.
  case: String.eqb_spec => // _; case: hi => [[k hk lk]|[hs [k hk lk]]].
    rewrite hk /bad /=; right; rewrite String.eqb_refl; split; last by exists k.
    by case: String.eqb_spec.
  rewrite hs /= String.eqb_refl hgz.1 /= C69_process // hk /bad /=; left; rewrite String.eqb_refl; by exists k.
have step c (d1 : folder) : bad d1 -> about url c = true -> c.1.1.2 = url ->
    bad (get_frostt c.1.1.1 c.1.1.2 c.1.2 c.2 d1).1 /\ exists x, (get_frostt c.1.1.1 c.1.1.2 c.1.2 c.2 d1).2 = Err x.
  case: c => [[[e1 u1] n1] s1] /= b _ ->; rewrite /Frostt.get_frostt; case: b => [[k hk lk]|[E [k hk lk]]].
    by rewrite hk /=; split; [left; exists k|have [x ->] := (nc X).2 k lk; exists x].
  rewrite E /download_data [file (Folder _ _)]/= hk /= hk.
  have [x ex] : exists x, (do text <- gunzip (take k gz); process_frostt int_of float_of text n1 s1) = Err x.
    by case: (hgz.2 k lk) => [->|[x ->]]; eexists.
  by rewrite ex /=; split; [right; split=> //; exists k|exists x].
have fin (d1 : folder) : bad d1 -> bad (fafter h d1).
  move: hu; elim: (h) d1 => //= c h' IH d1 hu b; apply: IH.
    by move=> c' hc; apply: hu; right.
  case A: (about url c); first by have [] := step c d1 b A (hu c (or_introl erefl) A).
  have [n1 n2 n3 n4] := not_about A; rewrite /bad !gf_other //.
have ab : about url (e', url, nnz', s') by rewrite /about /= String.eqb_refl.
by have [_] := step (e', url, nnz', s') _ (fin _ hd) ab erefl.
Qed.
End Honest.
End Cache.

(* ---- the hypotheses can be met: decimal numbers, one integer entry per line ---- *)
Section Ex.
Definition dec (n : nat) : string := NilEmpty.string_of_uint (Nat.to_uint n).
Definition undec (s : string) : res int :=
  if NilEmpty.uint_of_string s is Some u then Ok (Posz (Nat.of_uint u)) else Err ValueError.
Fixpoint strip (s : string) : string :=
  match s with EmptyString => EmptyString | String c r => if Ascii.eqb c newline then EmptyString else String c (strip r) end.
Definition dec_int (x : int) : string := match x with Posz n => dec n | Negz n => String "-" (dec n.+1) end.
Definition undec_int (s : string) : res int :=
  match strip s with String "-" r => do x <- undec r; Ok (- x)%R | r => undec r end.

Lemma undec_dec n : undec (dec n) = Ok (Posz n).
Proof. by rewrite /undec /dec NilEmpty.usu DecimalNat.Unsigned.of_to. Qed.
Lemma plain_dec n : plain (dec n).
Proof. by rewrite /dec; elim: (Nat.to_uint n). Qed.
Lemma strip_plain s : plain s -> strip (s ++ String newline "")%string = s.
Proof. by elim: s => //= c s IH /and3P[_ /negbTE-> /IH ->]. Qed.
Lemma dec_no_sign n r : dec n <> String "-" r.
Proof. by rewrite /dec; case: (Nat.to_uint n). Qed.

Example C69_texts : reads_back dec dec_int undec undec_int.
Proof.
split=> [n|x]; first by rewrite plain_dec undec_dec.
have px : plain (dec_int x) by case: x => n; rewrite /= plain_dec.
split=> //; rewrite /undec_int strip_plain //; case: x {px} => n; rewrite /dec_int; last by rewrite undec_dec.
rewrite -undec_dec; have := @dec_no_sign n; case: (dec n) => // c r.
by case: c => -[] [] [] [] [] [] [] [] // h; case: (h r).
Qed.

(* a file with the entries 5 at (0, 1) and -7 at (1, 0), and calls of which the first is interrupted *)
Example C69_nonvacuous :
  let inds := [:: [:: 0; 1]; [:: 1; 0]]%N in let vals := [:: Posz 5; Negz 6] : seq int in
  let text := text_of dec dec_int inds vals in
  let gz := nseq 2 (saved_of [:: 2; 2]%N inds vals) in
  let gunzip (l : seq (saved [comRingType of int])) := if size l == 2%N then Ok text else Ok ""%string in
  let savez (t : saved [comRingType of int]) := [:: t; t] in
  let load (l : seq (saved [comRingType of int])) := if l is [:: t; _] then Ok t else Err RuntimeError in
  [/\ wf (Sparse [:: 2; 2]%N inds vals), text = ("1 2 5" ++ String newline "" ++ "2 1 -7" ++ String newline "")%string,
      gz_file gunzip gz text & npz_contract savez load] /\
  let url := "https://host/x.tns.gz"%string in
  let call k := (FEnv (Env (fun=> Some gz) k) None, url, 2%N, [:: 2; 2]%N) in
  (forall c, List.In c [:: call (Some 1%N); call None] -> honest url gz 2 [:: 2; 2]%N c) /\
  uninterrupted url (call None).
Proof.
move=> inds vals text gz gunzip savez load; split; last first.
  by split=> [c /= [<-|[<-|[]]] _|//]; split=> //; left.
split=> //; first by split=> // -[|[|k]] // _; left.
by move=> t; split=> // -[|[|k]] // _; eexists.
Qed.
End Ex.

Example C69_names : npz_of (filename_of "https://host/a/nips.tns.gz") = "nips.tns.npz"%string /\
  npz_of "x.gz.gz" = "x.npz"%string /\ npz_of "x.dat" = "x.dat.npz"%string.
Proof. by []. Qed.

Print Assumptions C69_process.
Print Assumptions C69_process_errors.
Print Assumptions C69_too_few.
Print Assumptions C69_too_few_refuted.
Print Assumptions C69_cached.
Print Assumptions C69_never_wrong.
Print Assumptions C69_complete.
Print Assumptions C69_interrupted_refuted.
