(* scripts/plot_cookie.py, 16-27: reading arrays of results back from the log file of do_cookie.py, where
   they are written as numpy prints them (definitions only).  eval and np.array are a parameter. *)
From Coq Require Import String Ascii.
From mathcomp Require Import all_ssreflect.
From Verif Require Import Py Frostt.
Set Implicit Arguments. Unset Strict Implicit. Unset Printing Implicit Defensive.
Local Open Scope string_scope.

(* s.replace("\n", ""), 19 *)
Fixpoint no_newlines (s : string) : string :=
  match s with
  | EmptyString => ""
  | String c r => if Ascii.eqb c newline then no_newlines r else String c (no_newlines r)
  end.
(* ",".join(l), 19 *)
Fixpoint join_comma (l : seq string) : string :=
  match l with [::] => "" | [:: w] => w | w :: l' => w ++ String "," (join_comma l') end.
(* s.replace(",,", ","), 20-21: from left to right, occurrences that do not overlap *)
Fixpoint replace_commas (s : string) : string :=
  match s with
  | String "," (String "," r) => String "," (replace_commas r)
  | String c r => String c (replace_commas r)
  | EmptyString => ""
  end.
(* what process_sl gives to eval, for one cell of the table: 26 splits it at the spaces, 16-22 *)
Definition eval_text (cell : string) : string :=
  replace_commas (replace_commas (join_comma [seq no_newlines s | s <- split_sp "" cell])).
Definition process_sl (A : Type) (eval : string -> res A) (cell : string) : res A := eval (eval_text cell).
