(* Several processes that write to the same experiment log (scripts/experiment_base.py): the model of
   Experiment.v with the calls of different processes interleaved in any order.

   A process reads the file once, when it makes its Experiment object (lines 21-30); do_experiment
   (lines 48-87) looks only at its own memory; save (lines 35-36) writes the whole of its memory to
   the file.  Idealisation: a save that is under way leaves some first rows of the new file, and two
   saves that overlap leave the file of the one that ends last. *)
From Coq Require Import String Ascii.
From mathcomp Require Import all_ssreflect.
From Verif Require Import Py Nd Experiment.
Set Implicit Arguments. Unset Strict Implicit. Unset Printing Implicit Defensive.

Section Conc.
Variable num : eqType.
Variable show : bool -> num -> string.
Variable parse : string -> option num.
Variable na : string -> bool.
Variable show_nat : nat -> string.
Notation exper := (exper num).
Notation frame := (frame num).
Notation outcome := (outcome num).

(* a process: its DataFrame, the calls it has still to make, and whether it is in save() *)
Record proc := Proc { mem : frame; todo : seq exper; saving : bool }.
Definition no_proc : proc := Proc (Frame [::] [::]) [::] false.

(* the file, the processes, and the calls of experiment functions so far with their outcomes *)
Record world := World { disk : option csv; procs : seq proc; log : seq (exper * outcome) }.

Inductive event :=
  | Start of seq exper            (* a process with this plan is started and reads the file *)
  | Call of nat & outcome         (* process i makes its next call of do_experiment, up to line 84 *)
  | Save_part of nat & nat        (* process i, in save(), has written k rows *)
  | Save_end of nat.              (* process i ends save() *)

(* what an event does; a process that is killed takes part in no later event *)
Definition act (w : world) (ev : event) : world :=
  match ev with
  | Start plan => World (disk w) (rcons (procs w) (Proc (open_log parse na false (disk w)) plan false)) (log w)
  | Call i o =>
      let p := nth no_proc (procs w) i in
      if saving p then w else
      match todo p with
      | [::] => w
      | e :: rest =>
          let row := conds e in
          if check_done (mem p) row then                                         (* lines 74-75 *)
            World (disk w) (set_nth no_proc (procs w) i (Proc (mem p) rest false)) (log w)
          else match o with
          | None =>                                                              (* line 78 raises: the script ends *)
              World (disk w) (set_nth no_proc (procs w) i (Proc (mem p) [::] false)) (rcons (log w) (e, None))
          | Some res =>                                                          (* lines 78-84 *)
              World (disk w) (set_nth no_proc (procs w) i (Proc (concat (mem p) (dict_update row res)) rest true))
                (rcons (log w) (e, Some res))
          end
      end
  | Save_part i k =>
      let p := nth no_proc (procs w) i in
      if saving p then World (Some (torn k (to_csv show show_nat (mem p)))) (procs w) (log w) else w
  | Save_end i =>                                                                (* line 86 *)
      let p := nth no_proc (procs w) i in
      if saving p then World (Some (to_csv show show_nat (mem p)))
        (set_nth no_proc (procs w) i (Proc (mem p) (todo p) false)) (log w) else w
  end.
Definition nothing : world := World None [::] [::].
Definition play (evs : seq event) : world := foldl act nothing evs.
End Conc.
