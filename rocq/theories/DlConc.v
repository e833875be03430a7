(* scripts/data_download_util.py: download_data called by several processes at the same time for one
   URL (definitions only).  The steps of one call: os.path.isfile (line 36), the answer of the server
   (urlopen inside urlretrieve, line 24), open(filename, "wb") which empties the file, the copying of
   blocks, each written behind the previous one of the same process (POSIX: a position behind the end
   of the file leaves zeros between), the end.  os.mkdir (30) changes nothing here.  Simplification:
   the server sends the same content to every process; calls for other file names do not touch the file. *)
From mathcomp Require Import all_ssreflect.
Set Implicit Arguments. Unset Strict Implicit. Unset Printing Implicit Defensive.

Section DlConc.
Variable byte : Type.
Variable zero : byte.
Variable content : seq byte.

(* where a call of download_data is *)
Inductive stage :=
  | Looking                (* before line 36 *)
  | Asking                 (* there was no file; before the answer of the server *)
  | Copying of nat         (* the file is open, so many bytes have been written *)
  | Returned               (* came to its end *)
  | Failed                 (* no answer: an exception before the file was opened *)
  | Killed.                (* at any other point *)
Record world := World { file : option (seq byte); procs : seq stage }.

Inductive event :=
  | Call                   (* another process calls download_data *)
  | Look of nat            (* process i evaluates os.path.isfile *)
  | Refuse of nat          (* process i gets no answer *)
  | Open of nat            (* process i gets an answer and opens the file for writing *)
  | Copy of nat & nat      (* process i writes its next block of at most n bytes *)
  | Close of nat           (* process i has written everything, closes the file and returns *)
  | Kill of nat.

(* writing the bytes l at position k *)
Definition pwrite (f : seq byte) (k : nat) (l : seq byte) : seq byte :=
  if nilp l then f
  else mkseq (fun p => if k <= p < k + size l then nth zero l (p - k) else nth zero f p) (maxn (size f) (k + size l)).

Definition act (w : world) (ev : event) : world :=
  let stage_of i := nth Killed (procs w) i in
  let upd i s := set_nth Killed (procs w) i s in
  match ev with
  | Call => World (file w) (rcons (procs w) Looking)
  | Look i => if stage_of i is Looking then World (file w) (upd i (if file w is Some _ then Returned else Asking)) else w
  | Refuse i => if stage_of i is Asking then World (file w) (upd i Failed) else w
  | Open i => if stage_of i is Asking then World (Some [::]) (upd i (Copying 0)) else w
  | Copy i n =>
      match stage_of i, file w with
      | Copying k, Some f => let l := take n (drop k content) in World (Some (pwrite f k l)) (upd i (Copying (k + size l)))
      | _, _ => w
      end
  | Close i => if stage_of i is Copying k then if k == size content then World (file w) (upd i Returned) else w else w
  | Kill i => if stage_of i is (Looking | Asking | Copying _) then World (file w) (upd i Killed) else w
  end.
Definition run (evs : seq event) : world := foldl act (World None [::]) evs.
End DlConc.
