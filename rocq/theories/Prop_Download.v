(* Property C63: download_data under interruptions and repeated calls. *)
From Coq Require Import String Ascii.
From mathcomp Require Import all_ssreflect.
From Verif Require Import Download.
Set Implicit Arguments. Unset Strict Implicit. Unset Printing Implicit Defensive.
Local Open Scope string_scope.

(* ---- file names ---- *)
Fixpoint no_slash (s : string) : bool :=
  match s with EmptyString => true | String c r => ~~ Ascii.eqb c "/" && no_slash r end.

Lemma sapp0 s : s ++ "" = s. Proof. by elim: s => //= c s ->. Qed.
Lemma sappA a b c : a ++ (b ++ c) = (a ++ b) ++ c. Proof. by elim: a => //= x a ->. Qed.
Lemma no_slash_cat a b : no_slash (a ++ b) = no_slash a && no_slash b.
Proof. by elim: a => //= c a ->; rewrite andbA. Qed.

Lemma last_partP p u : no_slash p -> no_slash (last_part p u) /\
  (last_part p u = p ++ u \/ exists q, p ++ u = q ++ "/" ++ last_part p u).
Proof.
elim: u p => [|c u IH] p hp /=; first by split=> //; left; rewrite sapp0.
have [|n] := Ascii.eqb_spec c "/".
  move=> ->; have [h1 h2] := IH "" isT; split=> //; right.
  case: h2 => [->|[q /= e]]; first by exists p.
  by exists (p ++ "/" ++ q); rewrite -sappA -[X in _ = p ++ X]/(String "/" (q ++ "/" ++ last_part "" u)) -e.
have hp' : no_slash (p ++ String c "") by rewrite no_slash_cat hp /= andbT; case: (Ascii.eqb_spec c "/").
have [h1 h2] := IH _ hp'; split=> //.
by rewrite (_ : p ++ String c u = (p ++ String c "") ++ u) // -sappA.
Qed.

(* the file name is the part of the URL after the last slash *)
Theorem C63_name url : no_slash (filename_of url) /\ (filename_of url = url \/ exists q, url = q ++ "/" ++ filename_of url).
Proof. exact: (@last_partP "" url isT). Qed.

Section P.
Variable byte : Type.
Notation bytes := (seq byte).
Notation folder := (folder byte).
Notation calls := (calls byte).

Lemma dl_keep e url (d : folder) n c : file d n = Some c -> file (download_data e url d).1 n = Some c.
Proof.
move=> h; rewrite /download_data [file (Folder _ _)]/=; case E: (file d (filename_of url)) => [c'|] //=; rewrite /urlretrieve.
case: (answer e url) => [a|] //; case: (String.eqb _ "") => //.
have nn : String.eqb n (filename_of url) = false.
  by case: String.eqb_spec => // en; move: E; rewrite -en h.
by case: (stop e) => [k|] /=; rewrite nn.
Qed.

(* whatever happens later - calls, interruptions, changes on the server - a file that exists is
   never changed, and download_data of a URL with its name returns at once *)
Theorem C63_never_changed (h : calls) d url c e : file d (filename_of url) = Some c ->
  file (after h d) (filename_of url) = Some c /\
  (download_data e url (after h d)).2 = Returns /\ file (download_data e url (after h d)).1 =1 file (after h d).
Proof.
move=> hd; have h1 : file (after h d) (filename_of url) = Some c.
  by elim: h d hd => //= q h IH d hd; apply: IH; exact: dl_keep.
by split=> //; rewrite /download_data /= h1.
Qed.

(* so the content of a file is decided by the first call for its name that reaches the server: all of
   the answer, or the part received before the interruption *)
Definition reaches (n : string) (c : env byte * string) : bool := String.eqb (filename_of c.2) n && isSome (answer c.1 c.2).
Definition received (c : env byte * string) : bytes :=
  let a := odflt [::] (answer c.1 c.2) in if stop c.1 is Some k then take k a else a.

Theorem C63_content (h : calls) n : n <> "" ->
  file (after h (empty_disk byte)) n = if [seq c <- h | reaches n c] is c :: _ then Some (received c) else None.
Proof.
move=> n0; suff H d : file d n = None -> file (after h d) n = if [seq c <- h | reaches n c] is c :: _ then Some (received c) else None by exact: H.
elim: h d => [|[e url] h IH] d hd //=; rewrite /reaches /=.
have [en|nn] := String.eqb_spec (filename_of url) n; last first.
  rewrite andFb; apply: IH; rewrite /download_data [file (Folder _ _)]/=; case: (file d (filename_of url)) => [c|] //=; rewrite /urlretrieve.
  case: (answer e url) => [a|] //; case: (String.eqb _ "") => //.
  have nn' : String.eqb n (filename_of url) = false by case: String.eqb_spec => // en; case: nn.
  by case: (stop e) => [k|] /=; rewrite nn'.
rewrite andTb; case A: (answer e url) => [a|] /=; last first.
  by apply: IH; rewrite /download_data /= en hd /urlretrieve A.
suff : file (download_data e url d).1 n = Some (received (e, url)) by rewrite -en => h1; exact: (C63_never_changed h e h1).1.
rewrite /download_data /= en hd /urlretrieve A; have -> : String.eqb n "" = false by case: String.eqb_spec.
by rewrite /received /= A; case: (stop e) => [k|] /=; rewrite String.eqb_refl.
Qed.

(* if the server always sends the same, no call for that file name was interrupted, and the name belongs to
   one URL only, then the file is complete whenever download_data returns *)
Theorem C63_complete (content : string -> bytes) (h : calls) e url :
  (forall c a, List.In c (rcons h (e, url)) -> answer c.1 c.2 = Some a -> a = content c.2) ->
  (forall c, List.In c (rcons h (e, url)) -> filename_of c.2 = filename_of url -> c.2 = url /\ stop c.1 = None) ->
  (download_data e url (after h (empty_disk byte))).2 = Returns ->
  file (download_data e url (after h (empty_disk byte))).1 (filename_of url) = Some (content url).
Proof.
move=> hs hu hr; set n := filename_of url.
have n0 : n <> "".
  move=> e0; move: hr; rewrite /download_data -/n e0.
  have fe : file (after h (empty_disk byte)) "" = None.
    suff H d : file d "" = None -> file (after h d) "" = None by exact: H.
    elim: (h) d => //= q h' IH d hd; apply: IH; rewrite /download_data [file (Folder _ _)]/=; case F: (file d (filename_of q.2)) => [c|] //=; rewrite /urlretrieve.
    case: (answer _ _) => [a|] //; case: String.eqb_spec => // nn.
    by move: nn; case: (stop _) => [k|] /=; case: (filename_of q.2).
  by rewrite /= fe /urlretrieve; case: (answer e url).
have -> : (download_data e url (after h (empty_disk byte))).1 = after (rcons h (e, url)) (empty_disk byte).
  by rewrite /after -cats1 foldl_cat.
rewrite (C63_content _ n0).
have : file (download_data e url (after h (empty_disk byte))).1 n <> None.
  move: hr; rewrite /download_data [file (Folder _ _)]/= -/n; case F: (file (after h (empty_disk byte)) n) => [c|] /=; first by rewrite F.
  rewrite /urlretrieve; case: (answer e url) => //= a; case: String.eqb_spec => // _.
  by case: (stop e) => //= _; rewrite String.eqb_refl.
have -> : (download_data e url (after h (empty_disk byte))).1 = after (rcons h (e, url)) (empty_disk byte).
  by rewrite /after -cats1 foldl_cat.
rewrite (C63_content _ n0); elim: (rcons h _) hs hu => //= c l IH hs hu.
case R: (reaches n c) => [|] /=; last first.
  by apply: IH => [c' a hc|c' hc]; [apply: hs; right|apply: hu; right].
move=> _; case/andP: R; case: String.eqb_spec => // en _; case A: (answer _ _) => [a|] // _.
have [eu es] := hu c (or_introl erefl) en; rewrite /received A es /=.
by rewrite (hs c a (or_introl erefl) A) eu.
Qed.
End P.

Section Ex.
(* a server that always sends [1; 2; 3] *)
Definition ex_env (k : option nat) : env nat := Env (fun=> Some [:: 1; 2; 3]) k.
Definition ex_url := "https://host/dir/x.dat".

(* "when download_data returns, the file is what the server sends" is false: after a call that was
   interrupted, all further calls return and leave the truncated file *)
Theorem C63_interrupted_refuted : exists (content : string -> seq nat) (h : calls nat) e url,
  [/\ forall c, List.In c (rcons h (e, url)) -> answer c.1 c.2 = Some (content c.2), stop e = None,
      (download_data e url (after h (empty_disk nat))).2 = Returns &
      file (download_data e url (after h (empty_disk nat))).1 (filename_of url) <> Some (content url)].
Proof.
exists (fun=> [:: 1; 2; 3]), [:: (ex_env (Some 2), ex_url)], (ex_env None), ex_url; split=> //.
by move=> c /= [<-|[<-|[]]].
Qed.

(* it is also false without interruptions, for two URLs with the same last part *)
Theorem C63_same_name_refuted : exists (content : string -> seq nat) (h : calls nat) e url,
  [/\ forall c, List.In c (rcons h (e, url)) -> answer c.1 c.2 = Some (content c.2) /\ stop c.1 = None,
      (download_data e url (after h (empty_disk nat))).2 = Returns &
      file (download_data e url (after h (empty_disk nat))).1 (filename_of url) <> Some (content url)].
Proof.
pose content (u : string) := if String.eqb u "a/x.dat" then [:: 1] else [:: 2].
exists content, [:: (Env (fun u => Some (content u)) None, "a/x.dat")], (Env (fun u => Some (content u)) None), "b/x.dat"; split=> //.
by move=> c /= [<-|[<-|[]]].
Qed.

Example C63_ex_name : filename_of ex_url = "x.dat". Proof. by []. Qed.
Example C63_ex_complete : let h := [:: (Env (fun=> None) None, ex_url); (ex_env None, "other/y.dat"); (ex_env None, ex_url)] in
  (forall c a, List.In c (rcons h (ex_env None, ex_url)) -> answer c.1 c.2 = Some a -> a = [:: 1; 2; 3]) /\
  (forall c, List.In c (rcons h (ex_env None, ex_url)) -> filename_of c.2 = filename_of ex_url -> c.2 = ex_url /\ stop c.1 = None) /\
  (download_data (ex_env None) ex_url (after h (empty_disk nat))).2 = Returns.
Proof.
split; last split=> //.
  by move=> c a /= [<-|[<-|[<-|[<-|[]]]]] //= [].
by move=> c /= [<-|[<-|[<-|[<-|[]]]]].
Qed.
End Ex.

Print Assumptions C63_name.
Print Assumptions C63_never_changed.
Print Assumptions C63_content.
Print Assumptions C63_complete.
Print Assumptions C63_interrupted_refuted.
Print Assumptions C63_same_name_refuted.
