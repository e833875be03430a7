(* scripts/frostt.py, 51-88: reading a sparse tensor from a text file of the FROSTT collection, with a
   cache (definitions only).  Not modelled: the progress bar, OverflowError for indices beyond 64 bits,
   np.int64 and Python ints are the same numbers here, other failures of the file system, and calls at
   the same time.  Exceptions of gzip and np.load (EOFError, BadZipFile, ...) and the interruption of a
   call are all represented by RuntimeError. *)
From Coq Require Import String Ascii.
From mathcomp Require Import all_ssreflect all_algebra.
From Verif Require Import Py Download.
Set Implicit Arguments. Unset Strict Implicit. Unset Printing Implicit Defensive.
Local Open Scope string_scope.

Definition newline : ascii := "010".

(* line.split(b" "), 55 and 61 *)
Fixpoint split_sp (part s : string) : seq string :=
  match s with
  | EmptyString => [:: part]
  | String c r => if Ascii.eqb c " " then part :: split_sp "" r else split_sp (part ++ String c "") r
  end.
(* f.readlines(), 53: a line ends after a newline; the last one may have none *)
Fixpoint readlines (part s : string) : seq string :=
  match s with
  | EmptyString => if String.eqb part "" then [::] else [:: part]
  | String c r => if Ascii.eqb c newline then (part ++ String c "") :: readlines "" r
                  else readlines (part ++ String c "") r
  end.
(* filepath.split(".gz")[0], 71 (the folder name data has no ".gz") *)
Fixpoint before_gz (s : string) : string :=
  if String.prefix ".gz" s then "" else
  match s with EmptyString => "" | String c r => String c (before_gz r) end.
Definition npz_of (filename : string) : string := before_gz filename ++ ".npz".

Section Frostt.
Variable R : ringType.
(* int(s) and float(s) of a byte string *)
Variable int_of : string -> res int.
Variable float_of : string -> res R.

(* the attributes of a SparseTensor; the indices can be negative (a text with index 0) *)
Record saved := Saved { sshape : seq nat; sinds : seq (seq int); svals : seq R }.

(* a[i] = l for one row of a two-dimensional array with dim columns, 62 *)
Definition set_row (dim : nat) (a : seq (seq int)) (i : nat) (l : seq int) : res (seq (seq int)) :=
  if (size a <= i)%N then Err IndexError
  else if size l == dim then Ok (set_nth [::] a i l)
  else if size l == 1%N then Ok (set_nth [::] a i (nseq dim (head (0 : int)%R l)))   (* broadcast *)
  else Err ValueError.

(* one turn of the loop, 61-63 *)
Definition read_line (dim : nat) (st : seq (seq int) * seq R) (il : nat * string) : res (seq (seq int) * seq R) :=
  let words := split_sp "" il.2 in
  let k := (size words).-1 in
  do row <- mapM (fun w => do n <- int_of w; Ok (n - 1)%R) (take k words);
  do a <- set_row dim st.1 il.1 row;
  do v <- float_of (nth "" words k);
  if (size st.2 <= il.1)%N then Err IndexError else Ok (a, set_nth 0%R st.2 il.1 v).

(* process_frostt_tensor, 51-65, on the text in the file *)
Definition process_frostt (text : string) (nnz : nat) (shape : seq nat) : res saved :=
  let lines := readlines "" text in
  if lines is l0 :: _ then
    let dim := (size (split_sp "" l0)).-1 in
    do st <- foldM (read_line dim) (nseq nnz (nseq dim (0 : int)%R), nseq nnz (0 : R)%R) (zip (iota 0 (size lines)) lines);
    Ok (Saved shape [seq [seq nth (0 : int)%R row k | row <- st.1] | k <- iota 0 dim] st.2)
  else Err IndexError.

(* ---- the cache ---- *)
Variable byte : Type.
Variable gunzip : seq byte -> res string.       (* gzip.open(path), reading everything *)
Variable savez : saved -> seq byte.              (* what np.savez_compressed writes *)
Variable load : seq byte -> res saved.           (* np.load and reading the three arrays *)

(* the environment of one call: that of the download, and when saving is interrupted *)
Record fenv := FEnv { net : env byte; stop_save : option nat }.

(* get_frostt_tensor, 68-88 *)
Definition get_frostt (e : fenv) (url : string) (nnz : nat) (shape : seq nat) (d : folder byte) : folder byte * res saved :=
  let name := filename_of url in                                                     (* 69-70 *)
  let npz := npz_of name in                                                          (* 71 *)
  if file d npz is Some c then (d, load c)                                           (* 72-77 *)
  else
    let: (d, r) := download_data (net e) url d in                                    (* 79 *)
    if r is Raises then (d, Err RuntimeError) else
    if file d name is Some c then
      match (do text <- gunzip c; process_frostt text nnz shape) with                (* 80 *)
      | Err x => (d, Err x)
      | Ok t =>
        match stop_save e with                                                       (* 84-88 *)
        | None => (write d npz (savez t), Ok t)
        | Some k => (write d npz (take k (savez t)), Err RuntimeError)
        end
      end
    else (d, Err RuntimeError).

(* a history of calls, one after the other *)
Definition fcalls := seq (fenv * string * nat * seq nat).
Definition fafter (h : fcalls) (d : folder byte) : folder byte :=
  foldl (fun d c => (get_frostt c.1.1.1 c.1.1.2 c.1.2 c.2 d).1) d h.
End Frostt.
