(* scripts/data_download_util.py: download_data, which fetches a data set unless its file is there
   (definitions only).  A folder maps file names to contents.  Not modelled: the progress bar and
   its printing, other failures of the file system, concurrent calls
   (they are in DlConc.v). *)
From Coq Require Import String Ascii.
From mathcomp Require Import all_ssreflect.
Set Implicit Arguments. Unset Strict Implicit. Unset Printing Implicit Defensive.
Local Open Scope string_scope.

(* url.split("/")[-1], 34 *)
Fixpoint last_part (part url : string) : string :=
  match url with
  | EmptyString => part
  | String c rest => if Ascii.eqb c "/" then last_part "" rest else last_part (part ++ String c "") rest
  end.
Definition filename_of (url : string) : string := last_part "" url.

Section Download.
Variable byte : Type.
Notation bytes := (seq byte).

(* the folder data: does it exist, and its files *)
Record folder := Folder { there : bool; file : string -> option bytes }.
Definition write (d : folder) (name : string) (c : bytes) : folder :=
  Folder (there d) (fun n => if String.eqb n name then Some c else file d n).

(* how a call ends *)
Inductive ending := Returns | Raises.

(* The environment of one call: [answer url] is what the server sends for url (None: urlopen raises),
   [stop = Some k]: the call is interrupted (exception, lost connection, kill) when k bytes are in the file *)
Record env := Env { answer : string -> option bytes; stop : option nat }.

(* urllib.request.urlretrieve(url, filename=data/name), 23-25: connects, opens the file for
   writing, copies; opening "data/" raises IsADirectoryError *)
Definition urlretrieve (e : env) (url name : string) (d : folder) : folder * ending :=
  match answer e url with
  | None => (d, Raises)
  | Some c =>
    if String.eqb name "" then (d, Raises) else
    match stop e with
    | None => (write d name c, Returns)
    | Some k => (write d name (take k c), Raises)
    end
  end.

(* download_data, 28-39 *)
Definition download_data (e : env) (url : string) (d : folder) : folder * ending :=
  let d := Folder true (file d) in                                     (* 29-32: os.mkdir *)
  let name := filename_of url in                                       (* 34 *)
  if file d name is Some _ then (d, Returns)                           (* 36-37: os.path.isfile *)
  else urlretrieve e url name d.                                       (* 39 *)

(* a history of calls, in one or several processes one after the other *)
Definition calls := seq (env * string).
Definition after (h : calls) (d : folder) : folder := foldl (fun d c => (download_data c.1 c.2 d).1) d h.
Definition empty_disk : folder := Folder false (fun=> None).
End Download.
