(* scripts/experiment_base.py, class Experiment (lines 12-87): the log of finished experiments
   that all plotting scripts share, kept in memory as a pandas DataFrame and saved to a CSV
   file after every experiment, so that an interrupted script can be started again.

   Idealisations.  A DataFrame is a list of column names and a list of rows, a row maps column
   names to cells (a missing entry is NaN).  A CSV file is a header and rows of text cells:
   quoting and line splitting are not modelled.  Numbers are an abstract type [num] with
   their texts: [show f n] is the text of n in an integer (f = false) or a floating point
   (f = true) column, [parse] the number a text denotes, [na] the texts that read_csv takes
   for missing values.  Booleans, dates and numpy arrays as parameters are not modelled
   (results that are arrays are represented by their string).  *)
From Coq Require Import String Ascii.
From mathcomp Require Import all_ssreflect.
From Verif Require Import Py Nd.
Set Implicit Arguments. Unset Strict Implicit. Unset Printing Implicit Defensive.
Local Open Scope string_scope.

Definition string_eqMixin := EqMixin String.eqb_spec.
Canonical string_eqType := Eval hnf in EqType string string_eqMixin.

Section Exp.
Variable num : eqType.
Variable show : bool -> num -> string.
Variable parse : string -> option num.
Variable na : string -> bool.

(* a cell of a DataFrame *)
Inductive cell := CNum of num | CStr of string | CNaN.

(* a keyword argument: a number, a string, a float NaN, or another object, given by its
   __name__ or else its str(); a string such as "5" passes the float() test of line 65 and
   is kept as a string, as any other string *)
Inductive pyval := PNum of num | PNaN | PStr of string | PObj of string.

(* lines 64-72 *)
Definition to_cell (v : pyval) : cell :=
  match v with PNum n => CNum n | PNaN => CNaN | PStr s => CStr s | PObj s => CStr s end.

(* an element of [self.data[column] == value], line 42: NaN is different from everything *)
Definition cell_is (a b : cell) : bool :=
  match a, b with
  | CNum m, CNum n => m == n
  | CStr s, CStr t => s == t
  | _, _ => false
  end.

Definition dict := seq (string * cell).
(* row[key] = value: an existing key keeps its position *)
Fixpoint dict_put (d : dict) (k : string) (v : cell) : dict :=
  match d with
  | [::] => [:: (k, v)]
  | kv :: d' => if kv.1 == k then (k, v) :: d' else kv :: dict_put d' k v
  end.
Definition dict_update (d : dict) (e : dict) : dict := foldl (fun d kv => dict_put d kv.1 kv.2) d e.
(* the entry of a row in a column; NaN if the row has none *)
Fixpoint look (d : dict) (k : string) : cell :=
  match d with [::] => CNaN | kv :: d' => if kv.1 == k then kv.2 else look d' k end.

Record frame := Frame { fcols : seq string; frows : seq dict }.
(* line 28 *)
Definition empty_frame : frame := Frame [:: "name"; "error"; "time_taken"] [::].

(* check_experiment_done, lines 38-46 *)
Definition check_done (D : frame) (conds : dict) : bool :=
  if all (fun kv => kv.1 \in fcols D) conds
  then has (fun row => all (fun kv => cell_is (look row kv.1) kv.2) conds) (frows D)
  else false.

(* lines 83-84: pd.concat appends the row, new keys become new columns *)
Definition concat (D : frame) (row : dict) : frame :=
  Frame (fcols D ++ [seq k <- unzip1 row | k \notin fcols D]) (rcons (frows D) row).

(* ------------------------------------------------------------------ *)
(* CSV files                                                           *)

Record csv := Csv { header : seq string; body : seq (seq string) }.

(* an integer column with missing values is a floating point column *)
Definition has_missing (D : frame) (c : string) : bool :=
  has (fun row => if look row c is CNaN then true else false) (frows D).
Definition text (f : bool) (v : cell) : string :=
  match v with CNum n => show f n | CStr s => s | CNaN => "" end.

(* str of the row number *)
Variable show_nat : nat -> string.

(* save, lines 35-36: DataFrame.to_csv; the row numbers are an unnamed first column *)
Definition to_csv (D : frame) : csv :=
  Csv ("" :: fcols D)
      [seq show_nat p.1 :: [seq text (has_missing D c) (look p.2 c) | c <- fcols D]
      | p <- zip (iota 0 (size (frows D))) (frows D)].

(* the name read_csv gives to the unnamed column: "Unnamed: 0", with a suffix if columns
   of that name exist (which suffix exactly depends on the pandas version) *)
Definition is_unnamed (k : string) : bool := String.prefix "Unnamed: " k.
Definition unnamed (names : seq string) : string :=
  foldr String.append "" ("Unnamed: 0" :: nseq (count is_unnamed names) ".1").

(* the type of a column: numbers if every text that is not missing is a number *)
Definition numeric (ts : seq string) : bool := all (fun t => na t || isSome (parse t)) ts.
Definition read_cell (numc : bool) (t : string) : cell :=
  if na t then CNaN
  else if numc then (if parse t is Some n then CNum n else CNaN) else CStr t.

(* pd.read_csv(filename), lines 26 and 32 *)
Definition read_csv (f : csv) : frame :=
  let names := unnamed (behead (header f)) :: behead (header f) in
  let column j := [seq nth "" r j | r <- body f] in
  Frame names
    [seq [seq (p.2, read_cell (numeric (column p.1)) (nth "" r p.1))
         | p <- zip (iota 0 (size names)) names]
    | r <- body f].

(* ------------------------------------------------------------------ *)
(* do_experiment, lines 48-87                                          *)

(* one call: name and keyword arguments *)
Record exper := Exper { ename : string; kwargs : seq (string * pyval) }.
(* lines 62-73: row *)
Definition conds (e : exper) : dict :=
  dict_put (dict_update [::] [seq (kv.1, to_cell kv.2) | kv <- kwargs e]) "name" (CStr (ename e)).

(* what happens when experiment_func runs: it returns its results, or the process dies or an
   exception is raised before they are recorded *)
Definition outcome := option dict.

Inductive event := Skipped | Died | Recorded of dict.

(* memory and disk after the call *)
Definition do_experiment (D : frame) (disk : option csv) (e : exper) (o : outcome)
  : frame * option csv * event :=
  let row := conds e in
  if check_done D row then (D, disk, Skipped)                   (* 74-75 *)
  else match o with
  | None => (D, disk, Died)                                     (* 78 *)
  | Some res =>
      let row' := dict_update row res in                        (* 79-80 *)
      let D' := concat D row' in                                (* 83-84 *)
      (D', Some (to_csv D'), Recorded res)                      (* 86 *)
  end.

(* Experiment(filename, force_overwrite=force), lines 16-30 *)
Definition open_log (force : bool) (disk : option csv) : frame :=
  match disk with
  | Some f => if force then empty_frame else read_csv f
  | None => empty_frame
  end.

(* a script: the planned calls one after the other; it ends when one of them dies.  Returns
   the file and the calls whose function was started, with what they returned *)
Fixpoint script (D : frame) (disk : option csv) (plan : seq exper) (outs : seq outcome)
  : option csv * seq (exper * outcome) :=
  match plan, outs with
  | e :: plan', o :: outs' =>
      match do_experiment D disk e o with
      | (D', disk', Skipped) => script D' disk' plan' outs'
      | (_, disk', Died) => (disk', [:: (e, None)])
      | (D', disk', Recorded res) =>
          let: (d, l) := script D' disk' plan' outs' in (d, (e, Some res) :: l)
      end
  | _, _ => (disk, [::])
  end.

(* one start of a script whose plan is [plan]: [outs] lists what its calls would do if they
   started, and if it is shorter than the plan the process is killed between two calls *)
Definition session (plan : seq exper) (disk : option csv) (outs : seq outcome)
  : option csv * seq (exper * outcome) :=
  script (open_log false disk) disk plan outs.

(* the script started again and again *)
Fixpoint sessions (plan : seq exper) (disk : option csv) (history : seq (seq outcome))
  : option csv * seq (exper * outcome) :=
  match history with
  | [::] => (disk, [::])
  | outs :: history' =>
      let: (d, l) := session plan disk outs in
      let: (d', l') := sessions plan d history' in (d', (l ++ l')%SEQ)
  end.

(* to_csv (line 36) writes the file in place: a process killed meanwhile leaves the first rows
   only (idealised: whole rows, and a header) *)
Definition torn (k : nat) (f : csv) : csv := Csv (header f) (take k (body f)).
Definition tear (t : option nat) (disk : option csv) : option csv :=
  if t is Some k then omap (torn k) disk else disk.

(* the script started again and again, every time possibly with a torn file at the end *)
Fixpoint lives (plan : seq exper) (disk : option csv) (history : seq (seq outcome * option nat))
  : option csv * seq (exper * outcome) :=
  match history with
  | [::] => (disk, [::])
  | h :: history' =>
      let: (d, l) := session plan disk h.1 in
      let: (d', l') := lives plan (tear h.2 d) history' in (d', (l ++ l')%SEQ)
  end.
End Exp.
