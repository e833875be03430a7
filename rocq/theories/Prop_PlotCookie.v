(* Property C70: plot_cookie.py reads back the arrays in the log file. *)
From Coq Require Import String Ascii.
From mathcomp Require Import all_ssreflect.
From Verif Require Import Py Frostt PlotCookie.
Set Implicit Arguments. Unset Strict Implicit. Unset Printing Implicit Defensive.
Local Open Scope string_scope.

(* ---- specification: how numpy prints a one-dimensional array ---- *)
Definition char_ok (c : ascii) : bool := [&& ~~ Ascii.eqb c " ", ~~ Ascii.eqb c newline & ~~ Ascii.eqb c ","].
Fixpoint chars_ok (s : string) : bool := match s with EmptyString => true | String c r => char_ok c && chars_ok r end.
(* the text of a number: not empty, no space, newline or comma in it *)
Definition number_text (s : string) : bool := ~~ String.eqb s "" && chars_ok s.
Fixpoint times (k : nat) (c : ascii) (s : string) : string := if k is k'.+1 then String c (times k' c s) else s.
(* what comes between two numbers: k spaces, after a line break if b *)
Definition gap (b : bool) (k : nat) (s : string) : string :=
  if b then String newline (times k " " s) else times k " " s.
Fixpoint rest (l : seq (bool * nat * string)) : string :=
  if l is (b, k, w) :: l' then gap b k (w ++ rest l') else "]".
Definition printed (w : string) (l : seq (bool * nat * string)) : string := String "[" (w ++ rest l).
Definition texts (w : string) (l : seq (bool * nat * string)) : seq string := w :: [seq p.2 | p <- l].
(* a Python list with these texts *)
Definition list_text (ws : seq string) : string := String "[" (join_comma ws ++ "]").
(* two commas with nothing between them *)
Definition two_commas (s : string) : Prop := exists a b, s = a ++ ",," ++ b.

(* ---- proofs ---- *)
Lemma sapp0 s : s ++ "" = s. Proof. by elim: s => //= c s ->. Qed.
Lemma sappA a b c : a ++ (b ++ c) = (a ++ b) ++ c. Proof. by elim: a => //= x a ->. Qed.

(* splitting, removing newlines and joining: spaces become commas *)
Fixpoint tr (s : string) : string :=
  match s with
  | EmptyString => ""
  | String c r => if Ascii.eqb c " " then String "," (tr r) else if Ascii.eqb c newline then tr r else String c (tr r)
  end.
Lemma nn_cat a b : no_newlines (a ++ b) = no_newlines a ++ no_newlines b.
Proof. by elim: a => //= c a ->; case: Ascii.eqb. Qed.
Lemma split_sp_ne p s : exists x l, split_sp p s = x :: l.
Proof. by elim: s p => [|c s IH] p /=; [exists p, [::]|case: Ascii.eqb; [exists p, (split_sp "" s)|exact: IH]]. Qed.
Lemma split_tr p s : join_comma [seq no_newlines x | x <- split_sp p s] = no_newlines p ++ tr s.
Proof.
elim: s p => [|c s IH] p; first by rewrite /= sapp0.
rewrite [split_sp _ _]/= [tr _]/=; case: Ascii.eqb.
  by have := IH ""; have [x [l ->]] := split_sp_ne "" s; rewrite /= => <-.
by rewrite IH nn_cat /=; case: Ascii.eqb; rewrite ?sapp0 // -sappA.
Qed.

Lemma tr_ok w s : chars_ok w -> tr (w ++ s) = w ++ tr s.
Proof. by elim: w => //= c w IH /andP[/and3P[/negbTE-> /negbTE-> _] /IH ->]. Qed.
Lemma tr_times k s : tr (times k " " s) = times k "," (tr s).
Proof. by elim: k => //= k ->. Qed.
Fixpoint crest (f : nat -> nat) (l : seq (bool * nat * string)) : string :=
  if l is (b, k, w) :: l' then times (f k) "," (w ++ crest f l') else "]".
Definition words_ok (l : seq (bool * nat * string)) : bool := all (fun p => number_text p.2) l.
Lemma tr_rest l : words_ok l -> tr (rest l) = crest id l.
Proof.
elim: l => //= -[[b k] w] l IH /= /andP[/andP[_ ow] ol]; rewrite /gap.
by case: b; rewrite /= tr_times tr_ok // IH.
Qed.

Lemma rc1 c r : ~~ Ascii.eqb c "," -> replace_commas (String c r) = String c (replace_commas r).
Proof. by case: c => -[] [] [] [] [] [] [] []. Qed.
Lemma rc3 c r : ~~ Ascii.eqb c "," -> replace_commas (String "," (String c r)) = String "," (replace_commas (String c r)).
Proof. by case: c => -[] [] [] [] [] [] [] []. Qed.
Lemma rc_ok w s : chars_ok w -> replace_commas (w ++ s) = w ++ replace_commas s.
Proof.
elim: w => [|c w IH] // /andP[/and3P[_ _ hc] hw].
by rewrite -[String c w ++ s]/(String c (w ++ s)) rc1 // IH.
Qed.
Lemma rc_times k c r : ~~ Ascii.eqb c "," ->
  replace_commas (times k "," (String c r)) = times (uphalf k) "," (replace_commas (String c r)).
Proof.
move=> hc; suff H : replace_commas (times k "," (String c r)) = times (uphalf k) "," (replace_commas (String c r)) /\
  replace_commas (times k.+1 "," (String c r)) = times (uphalf k.+1) "," (replace_commas (String c r)) by case: H.
elim: k => [|k [IH1 IH2]]; first by split=> //; exact: rc3.
by split=> //; rewrite -[times k.+2 _ _]/(String "," (String "," (times k "," (String c r)))) /= -/replace_commas IH1.
Qed.
Lemma rc_crest f l : words_ok l -> replace_commas (crest f l) = crest (uphalf \o f) l.
Proof.
elim: l => //= -[[b k] w] l IH /= /andP[/andP[nw ow] ol].
case: w nw ow => [|c w] //= _ /andP[hc hw]; rewrite rc_times; last by case/and3P: hc.
by rewrite rc1 ?rc_ok ?IH //; case/and3P: hc.
Qed.

Lemma eval_textE w l : number_text w -> words_ok l ->
  eval_text (printed w l) = String "[" (w ++ crest (uphalf \o (uphalf \o id)) l).
Proof.
move=> /andP[_ ow] ol; rewrite /eval_text split_tr /printed [tr _]/= tr_ok // tr_rest //=.
by rewrite !rc_ok // !rc_crest.
Qed.

Lemma crest1 f w l : all (fun p => f p.1.2 == 1) l -> w ++ crest f l = join_comma (texts w l) ++ "]".
Proof.
elim: l w => [|[[b k] w'] l IH] w; first by [].
case/andP=> /eqP h al; have {}h : f k = 1 := h.
have -> : join_comma (texts w ((b, k, w') :: l)) = w ++ String "," (join_comma (texts w' l)) by [].
by rewrite -sappA [crest _ _]/= h /= IH.
Qed.

(* ---- the property ---- *)
(* If the numbers are at most four spaces apart (and lines broken anywhere between them), eval gets the
   list of the numbers *)
Theorem C70_read w l : number_text w -> words_ok l -> all (fun p => 0 < p.1.2 <= 4) l ->
  forall (A : Type) (eval : string -> res A), process_sl eval (printed w l) = eval (list_text (texts w l)).
Proof.
move=> ow ol hl A eval; rewrite /process_sl eval_textE // /list_text crest1 //.
by apply: sub_all hl => -[[b k] x] /=; case: k => [|[|[|[|[|k]]]]].
Qed.

(* one gap of five or more spaces leaves two commas next to each other *)
Theorem C70_wide_gap_refuted w l : number_text w -> words_ok l -> has (fun p => 4 < p.1.2) l ->
  two_commas (eval_text (printed w l)).
Proof.
move=> ow ol hl; rewrite eval_textE //; set f := _ \o _.
have H a : two_commas a -> forall b, two_commas (b ++ a).
  by case=> x [y ->] b; exists (b ++ x), y; rewrite sappA.
have T k a : two_commas a -> two_commas (times k "," a).
  by move=> h; elim: k => //= k IH; exact: H IH (String "," "").
rewrite -[String _ _]/("[" ++ (w ++ crest f l)); apply: (H); apply: (H).
elim: l ol hl => //= -[[b k] x] l IH /= /andP[_ ol]; case/orP=> [hk|/(IH ol) h]; last by apply/T/H.
have : 1 < f k by rewrite /f /=; case: k hk => [|[|[|[|[|k]]]]].
by case: (f k) => [|[|m]] // _; exists "", (times m "," (x ++ crest f l)).
Qed.

(* an array that starts with a space (numbers of different lengths) gives a list that starts with a comma *)
Theorem C70_padded_refuted w l k : number_text w -> words_ok l ->
  exists r, eval_text (String "[" (times k.+1 " " (w ++ rest l))) = "[," ++ r.
Proof.
move=> /andP[nw ow] ol; rewrite /eval_text split_tr [tr _]/= tr_times tr_ok // tr_rest //.
case: w nw ow => [|c w] // _ /andP[hc hw].
have hc2 : ~~ Ascii.eqb c "," by case/and3P: hc.
rewrite [no_newlines _]/= -[String "," (times k _ _)]/(times k.+1 "," (String c (w ++ crest id l))).
rewrite -[_ ++ String "[" _]/(String "[" (times k.+1 "," (String c (w ++ crest id l)))).
rewrite rc1 // rc_times // rc1 // rc1 // rc_times //.
by exists (times (uphalf (uphalf k.+1)).-1 "," (replace_commas (String c (replace_commas (w ++ crest id l))))); case: k.
Qed.

(* "[0.5 0.25\n 1.]" is read; "[ 1. 10.]" is not *)
Example C70_nonvacuous :
  let l := [:: (false, 1, "0.25"); (true, 1, "1.")] in
  [/\ number_text "0.5", words_ok l, all (fun p => 0 < p.1.2 <= 4) l,
      printed "0.5" l = "[0.5 0.25" ++ String newline " 1.]" & eval_text (printed "0.5" l) = "[0.5,0.25,1.]"] /\
  eval_text "[ 1. 10.]" = "[,1.,10.]".
Proof. by []. Qed.

Print Assumptions C70_read.
Print Assumptions C70_wide_gap_refuted.
Print Assumptions C70_padded_refuted.
