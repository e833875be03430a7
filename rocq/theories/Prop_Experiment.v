(* C59: the experiment log of scripts/experiment_base.py.  Whatever happens - exceptions,
   kills between two experiments, kills while the file is written - starting the same script
   again continues where the file ends: nothing recorded is run again, nothing is lost, and
   after one run to the end the file holds every experiment of the plan exactly once. *)
From Coq Require Import String Ascii.
From mathcomp Require Import all_ssreflect.
From Verif Require Import Py Nd Experiment ExperimentSpec ExperimentThy.
Set Implicit Arguments. Unset Strict Implicit. Unset Printing Implicit Defensive.
Local Open Scope string_scope.

Section C59.
Variable num : eqType.
Variables (show : bool -> num -> string) (parse : string -> option num) (na : string -> bool).
Variable show_nat : nat -> string.
Hypothesis csvP : csv_contract show parse na.
Variables (numbers : string -> bool) (plan : seq (exper num)).
Hypothesis planP : all (good_exper parse na numbers) plan.
Notation good := (good_out parse na numbers plan).
Notation holds := (holds parse na).

(* Any number of sessions, each ended by anything: the calls recorded so far are a prefix of
   the plan (without the experiments that are part of an earlier one), the file holds exactly
   them, and at most one call per session was run in vain. *)
Theorem C59_crash_safe (history : seq (seq (outcome num))) :
  all (all good) history ->
  let r := sessions show parse na show_nat plan None history in
  exists m, [/\ unzip1 (recorded r.2) = once (take m plan), holds r.1 (recorded r.2) &
    (size r.2 <= size (recorded r.2) + size history)%N].
Proof.
move=> gh r; have := sessionsP csvP planP (show_nat := show_nat) (m := 0) (disk := None) (its := [::]) (hist := history).
rewrite take0 => /(_ isT erefl erefl gh)[m [h1 h2 h3 h4 _]].
by exists m; split=> //; apply: (disk_holds csvP planP h3).
Qed.

(* Some session reaches the end of the plan without a failure: every experiment is recorded
   exactly once, in the order of the plan, and is in the file with its result. *)
Theorem C59_complete (history : seq (seq (outcome num))) :
  all (all good) history ->
  has (fun outs => (size plan <= size outs)%N && all isSome outs) history ->
  let r := sessions show parse na show_nat plan None history in
  [/\ unzip1 (recorded r.2) = once plan, holds r.1 (recorded r.2) &
      distinct plan -> unzip1 (recorded r.2) = plan].
Proof.
move=> gh hf r; have := sessionsP csvP planP (show_nat := show_nat) (m := 0) (disk := None) (its := [::]) (hist := history).
rewrite take0 => /(_ isT erefl erefl gh)[m [h1 h2 h3 h4 h5]].
move: h2 h3; rewrite (h5 hf) take_size => h2 h3.
split=> //; first exact: (disk_holds csvP planP h3).
by move=> dp; rewrite -[RHS](once_distinct dp).
Qed.

(* Nothing recorded is recorded again. *)
Theorem C59_no_repeats (history : seq (seq (outcome num))) :
  all (all good) history ->
  let r := sessions show parse na show_nat plan None history in
  let done := unzip1 (recorded r.2) in
  forall i j, (i < j < size done)%N ->
    exists2 kv, kv \in params (nth (Exper "" [::]) done j) & kv \notin params (nth (Exper "" [::]) done i).
Proof.
move=> gh r done i j; have := C59_crash_safe gh => /=; rewrite -/r -/done => -[m [-> _ _]] ij.
by have /allPn[kv h1 h2] := once_sep ij; exists kv.
Qed.

(* The same with files that lose their last rows in a kill: after any such history the file
   holds a prefix of the plan, and one session that reaches the end runs exactly the calls
   that are missing from the file, and completes it. *)
Theorem C59_torn_save (history : seq (seq (outcome num) * option nat)) (outs : seq (outcome num)) :
  all (fun h => all good h.1) history -> all good outs ->
  (size plan <= size outs)%N -> all isSome outs ->
  let before := lives show parse na show_nat plan None history in
  let r := session show parse na show_nat plan before.1 outs in
  exists kept, [/\ {subset kept <= recorded before.2}, holds before.1 kept,
    unzip1 (kept ++ recorded r.2)%SEQ = once plan, size r.2 = size (recorded r.2) &
    holds r.1 (kept ++ recorded r.2)%SEQ].
Proof.
move=> gh go so ao before r.
have := livesP csvP planP (show_nat := show_nat) (m := 0) (disk := None) (its := [::]) (hist := history).
rewrite take0 => /(_ isT erefl erefl gh)[m [kept [h1 h2 h3 h4 h5]]].
have [m' [a1 a2 a3 _ a5]] := sessionP csvP planP (show_nat := show_nat) h1 h2 h3 go.
exists kept; split=> //.
- exact: (disk_holds csvP planP h3).
- by rewrite a2 a5 // take_size.
- rewrite /r /session; move: ao; clear; move: (before.1) (open_log parse na false before.1) => d D.
  elim: plan outs D d => [|x p IH] [|o outs] D d //= /andP[so aos]; rewrite /do_experiment.
  case: ifP => _; first exact: IH.
  case: o so => [res|] //= _; have := IH outs (concat D (dict_update (conds x) res))
    (Some (to_csv show show_nat (concat D (dict_update (conds x) res)))) aos.
  by case: (script _ _ _ _ p outs) => d' l' /= ->.
exact: (disk_holds csvP planP a3).
Qed.
End C59.
Print Assumptions C59_crash_safe.
Print Assumptions C59_complete.
Print Assumptions C59_no_repeats.
Print Assumptions C59_torn_save.

(* force_overwrite: the run is the run with no file, and the old file stays until the first
   experiment is recorded. *)
Theorem C59_overwrite (num : eqType) (show : bool -> num -> string) parse na show_nat
    (plan : seq (exper num)) disk outs :
  let r := script show show_nat (open_log parse na true disk) disk plan outs in
  let fresh := session show parse na show_nat plan None outs in
  [/\ r.2 = fresh.2, recorded r.2 = [::] -> r.1 = disk & recorded r.2 <> [::] -> r.1 = fresh.1].
Proof.
have -> : open_log parse na true disk = empty_frame num by case: disk.
exact: script_disk.
Qed.
Print Assumptions C59_overwrite.

(* every restart that records something adds a column ("Unnamed: 0") to the file *)
Theorem C59_restart_adds_column (num : eqType) (show : bool -> num -> string) parse na show_nat
    (plan : seq (exper num)) f outs f' :
  let r := session show parse na show_nat plan (Some f) outs in
  r.1 = Some f' -> recorded r.2 <> [::] -> (size (header f) < size (header f'))%N.
Proof.
move=> r e1 e2; have h := script_header e1 e2; apply: leq_ltn_trans h.
rewrite /= size_behead; by case: (size _).
Qed.
Print Assumptions C59_restart_adds_column.

(* ------------------------------------------------------------------ *)
(* numbers written in unary, "0" followed by ones *)
Fixpoint ones (n : nat) : string := if n is n'.+1 then String "1" (ones n') else "".
Fixpoint unones (s : string) : option nat :=
  match s with
  | EmptyString => Some 0
  | String c s' => if Ascii.eqb c "1" then omap S (unones s') else None
  end.
Definition show1 (f : bool) (n : nat) : string := String "0" (ones n).
Definition parse1 (s : string) : option nat :=
  match s with String c s' => if Ascii.eqb c "0" then unones s' else None | _ => None end.
Definition na1 (s : string) : bool := (s == "") || (s == "NA").
Lemma csv1 : csv_contract (num := nat_eqType) show1 parse1 na1.
Proof. by split=> // f n; split=> //=; elim: n => [|n /= ->]. Qed.

Definition k_rank n : string * pyval nat_eqType := ("rank", PNum (n : nat_eqType)).
Definition k_seed n : string * pyval nat_eqType := ("seed", PNum (n : nat_eqType)).
Definition k_mode s : string * pyval nat_eqType := ("mode", PStr nat_eqType s).
Definition ex_plan : seq (exper nat_eqType) :=
  [:: Exper "svd" [:: k_rank 1]; Exper "hmt" [:: k_rank 1; k_seed 0];
      Exper "hmt" [:: k_rank 2; k_mode "fast"]].
Definition ex_numbers (k : string) : bool := k \in [:: "rank"; "seed"; "error"; "time_taken"].
Definition ex_res n : dict nat_eqType := [:: ("error", CNum (n : nat_eqType)); ("time_taken", CNum (3 : nat_eqType))].
(* killed after the first experiment; exception in the second; torn file; all the way *)
Definition ex_history : seq (seq (outcome nat_eqType) * option nat) :=
  [:: ([:: Some (ex_res 5)], None); ([:: Some (ex_res 5); None], None);
      ([:: None; Some (ex_res 6); Some (ex_res 7)], Some 1%N)].
Definition ex_outs : seq (outcome nat_eqType) := [:: Some (ex_res 8); Some (ex_res 9); Some (ex_res 10)].

Example ex_plan_ok : all (good_exper parse1 na1 ex_numbers) ex_plan.
Proof. by vm_compute. Qed.
Example ex_history_ok : all (fun h => all (good_out parse1 na1 ex_numbers ex_plan) h.1) ex_history
  && all (good_out parse1 na1 ex_numbers ex_plan) ex_outs.
Proof. by vm_compute. Qed.
Example ex_distinct : once ex_plan = ex_plan.
Proof. by vm_compute. Qed.
Example ex_crash_safe := C59_crash_safe (show1 true) csv1 ex_plan_ok (history := unzip1 ex_history).
(* three sessions: 1 recorded, nothing, 2 recorded, of which one row survives; then 2 runs *)
Example ex_lives :
  let b := lives show1 parse1 na1 (show1 true) ex_plan None ex_history in
  let r := session show1 parse1 na1 (show1 true) ex_plan b.1 ex_outs in
  [seq unzip1 (recorded l) | l <- [:: b.2; r.2]] = [:: ex_plan; behead ex_plan]
  /\ omap header r.1 = Some [:: ""; "Unnamed: 0.1"; "Unnamed: 0"; "name"; "error"; "time_taken"; "rank"; "seed"; "mode"].
Proof. by vm_compute. Qed.

(* ------------------------------------------------------------------ *)
(* What the hypotheses are for *)
Notation run1 := (sessions (num := nat_eqType) show1 parse1 na1 (show1 true)).
Notation log1 plan history := (unzip1 (run1 plan None history).2).
Definition always (T : Type) n (res : T) : seq (option T) := nseq n (Some res).

(* an experiment with fewer parameters than an earlier one is never run *)
Theorem C59_fewer_parameters_refuted :
  let e1 := Exper "hmt" [:: k_rank 1; k_seed 0] in let e2 := Exper "hmt" [:: k_rank 1] in
  log1 [:: e1; e2] [:: always 2 (ex_res 1)] = [:: e1] /\
  log1 [:: e2; e1] [:: always 2 (ex_res 1)] = [:: e2; e1].
Proof. by vm_compute. Qed.
Print Assumptions C59_fewer_parameters_refuted.

(* a parameter that is a string of digits is read back as a number: the experiment is run
   again after a restart (and not within one session) *)
Theorem C59_numeric_string_refuted :
  let e := Exper "hmt" [:: k_mode "011"] in
  log1 [:: e] (nseq 3 (always 1 (ex_res 1))) = [:: e; e; e] /\
  log1 [:: e; e] [:: always 2 (ex_res 1)] = [:: e].
Proof. by vm_compute. Qed.
Print Assumptions C59_numeric_string_refuted.

(* a parameter that is a number in one experiment and a string in another: the first is run
   again after a restart *)
Theorem C59_mixed_column_refuted :
  let e1 := Exper "hmt" [:: k_rank 1] in let e2 := Exper "hmt" [:: ("rank", PStr nat_eqType "full")] in
  log1 [:: e1; e2] (nseq 2 (always 2 (ex_res 1))) = [:: e1; e2; e1].
Proof. by vm_compute. Qed.
Print Assumptions C59_mixed_column_refuted.

(* a NaN parameter, and the string "NA": run again, the former even in the same session *)
Theorem C59_nan_refuted :
  let e1 := Exper "hmt" [:: ("rank", PNaN nat_eqType)] in let e2 := Exper "hmt" [:: k_mode "NA"] in
  log1 [:: e1; e1] [:: always 2 (ex_res 1)] = [:: e1; e1] /\
  log1 [:: e2] (nseq 2 (always 1 (ex_res 1))) = [:: e2; e2].
Proof. by vm_compute. Qed.
Print Assumptions C59_nan_refuted.

(* a result named like a parameter replaces it in the log: the experiment is run again *)
Theorem C59_result_named_as_parameter_refuted :
  let e := Exper "hmt" [:: k_rank 1] in
  log1 [:: e; e] [:: always 2 [:: ("rank", CNum (2 : nat_eqType))]] = [:: e; e].
Proof. by vm_compute. Qed.
Print Assumptions C59_result_named_as_parameter_refuted.
