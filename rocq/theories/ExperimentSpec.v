(* Specification vocabulary for C59: what a user means by "this experiment is in the log". *)
From Coq Require Import String Ascii.
From mathcomp Require Import all_ssreflect.
From Verif Require Import Py Nd Experiment.
Set Implicit Arguments. Unset Strict Implicit. Unset Printing Implicit Defensive.
Local Open Scope string_scope.

Section Cells.
Variable num : eqType.
Definition enc (c : cell num) : num + string + unit :=
  match c with CNum n => inl (inl n) | CStr s => inl (inr s) | CNaN => inr tt end.
Definition dec (x : num + string + unit) : cell num :=
  match x with inl (inl n) => CNum n | inl (inr s) => CStr num s | inr _ => CNaN num end.
Lemma encK : cancel enc dec. Proof. by case. Qed.
Definition cell_eqMixin := CanEqMixin encK.
Canonical cell_eqType := Eval hnf in EqType (cell num) cell_eqMixin.
Definition pv_enc (v : pyval num) : num + unit + (string + string) :=
  match v with PNum n => inl (inl n) | PNaN => inl (inr tt) | PStr s => inr (inl s) | PObj s => inr (inr s) end.
Definition pv_dec (x : num + unit + (string + string)) : pyval num :=
  match x with inl (inl n) => PNum n | inl (inr _) => PNaN num
  | inr (inl s) => PStr num s | inr (inr s) => PObj num s end.
Lemma pv_encK : cancel pv_enc pv_dec. Proof. by case. Qed.
Definition pyval_eqMixin := CanEqMixin pv_encK.
Canonical pyval_eqType := Eval hnf in EqType (pyval num) pyval_eqMixin.
Definition ex_enc (e : exper num) := (ename e, kwargs e).
Definition ex_dec (p : string * seq (string * pyval num)) := Exper p.1 p.2.
Lemma ex_encK : cancel ex_enc ex_dec. Proof. by case. Qed.
Definition exper_eqMixin := CanEqMixin ex_encK.
Canonical exper_eqType := Eval hnf in EqType (exper num) exper_eqMixin.
End Cells.

Section Spec.
Variable num : eqType.
Variable parse : string -> option num.
Variable na : string -> bool.
Notation exper := (exper num).
Notation dict := (dict num).

(* the description of an experiment: its keyword arguments and its name *)
Definition params (e : exper) : dict :=
  rcons [seq (kv.1, to_cell kv.2) | kv <- kwargs e] ("name", CStr num (ename e)).

(* everything that describes e also describes e' *)
Definition part_of (e e' : exper) : bool := all (fun kv => kv \in params e') (params e).

(* the experiments of the plan that are not part of an earlier one, in order *)
Definition once (plan : seq exper) : seq exper :=
  foldl (fun acc e => if has (part_of e) acc then acc else rcons acc e) [::] plan.
(* no experiment of the plan is part of an earlier one *)
Definition distinct (plan : seq exper) : Prop :=
  forall i j, (i < j < size plan)%N ->
    exists2 kv, kv \in params (nth (Exper "" [::]) plan j) & kv \notin params (nth (Exper "" [::]) plan i).

(* every column holds only numbers, or only strings that are neither numbers nor missing
   values in disguise; [numbers c] says which *)
Definition of_kind (numbers : string -> bool) (d : dict) : bool :=
  all (fun kv => match kv.2 with
    | CNum _ => numbers kv.1
    | CStr s => [&& ~~ numbers kv.1, ~~ na s & parse s == None]
    | CNaN => true end) d.

(* not the empty name and not the one pandas gives to unnamed columns: identifiers *)
Definition plain_name (k : string) : bool := (k != "") && ~~ is_unnamed k.

(* keyword arguments: different names, none is "name" (Python rules both out), no NaN *)
Definition good_exper (numbers : string -> bool) (e : exper) : bool :=
  [&& uniq (unzip1 (kwargs e)), "name" \notin unzip1 (kwargs e),
      all plain_name (unzip1 (kwargs e)),
      all (fun kv => if kv.2 is PNaN then false else true) (kwargs e) & of_kind numbers (params e)].

(* results: their names are not those of parameters of any planned experiment *)
Definition good_result (numbers : string -> bool) (plan : seq exper) (res : dict) : bool :=
  [&& uniq (unzip1 res), all plain_name (unzip1 res), of_kind numbers res &
      all (fun k => all (fun e => k \notin unzip1 (params e)) plan && (k != "name")) (unzip1 res)].

(* the function returns such results, or it dies *)
Definition good_out (numbers : string -> bool) (plan : seq exper) (o : outcome num) : bool :=
  if o is Some res then good_result numbers plan res else true.

(* the calls that were recorded, with their results *)
Definition recorded (log : seq (exper * outcome num)) : seq (exper * dict) :=
  pmap (fun p => if p.2 is Some res then Some (p.1, res) else None) log.

(* column [k] of row [j] of the file reads as [v] *)
Definition reads_as (f : csv) (j : nat) (k : string) (v : cell num) : Prop :=
  k \in header f /\
    let t := nth "" (nth [::] (body f) j) (index k (header f)) in
    match v with CNum n => parse t = Some n | CStr s => t = s | CNaN => na t end.

(* the file holds exactly the given experiments with their results, in order *)
Definition holds (disk : option csv) (its : seq (exper * dict)) : Prop :=
  match disk with
  | None => its = [::]
  | Some f => size (body f) = size its /\
      forall j, (j < size its)%N -> forall kv,
        let it := nth (Exper "" [::], [::]) its j in
        kv \in (params it.1 ++ it.2)%SEQ -> reads_as f j kv.1 kv.2
  end.
End Spec.

(* texts of numbers read back as the same number and are not missing values; the empty text
   is a missing value *)
Definition csv_contract (num : eqType) (show : bool -> num -> string)
   (parse : string -> option num) (na : string -> bool) : Prop :=
  na "" /\ forall b n, parse (show b n) = Some n /\ ~~ na (show b n).
