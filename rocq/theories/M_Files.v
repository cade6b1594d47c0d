(** Model of the file, logger and output helpers of regain/utils.py:113-185. *)
From mathcomp Require Import all_ssreflect.
From Verif Require Import M_Utils.

Set Implicit Arguments.
Unset Strict Implicit.
Unset Printing Implicit Defensive.

(** strings as lists of code points; the extensions used in the file *)
Definition pystr := seq nat.
Definition dot_pkl : pystr := [:: 46; 112; 107; 108].
Definition dot_log : pystr := [:: 46; 108; 111; 103].
Definition dot_txt : pystr := [:: 46; 116; 120; 116].
(** exceptions of this file; PickleError stands for whatever the pickler raises *)
Inductive fexn := FileNotFoundError | OSError | AttributeError | IndexError | PickleError | OtherError (code : nat).
Inductive fres (T : Type) := Ok (v : T) | Exc (e : fexn).
Arguments Exc {T}.

(** lines 133-141, modelled in M_Utils; only IndexError can come out of it *)
Definition file_ending (filename : pystr) (l : seq pystr) : fres pystr :=
  match ensure_filename_ending filename (Exts l) with Val name => Ok name | Raise _ => Exc IndexError end.

Section Pickle.
Variable obj : Type.
(** pickle: what dump writes before it ends, and whether it ends with an exception; what load reads *)
Variable dump : obj -> seq nat * bool.
Variable load : seq nat -> fres obj.
(** which names can be opened for writing *)
Variable writable : pystr -> bool.
Definition files := pystr -> option (seq nat).
Definition write (fs : files) (name : pystr) (b : seq nat) : files := fun x => if x == name then Some b else fs x.

(** lines 174-178: open(.., "wb") empties the file before anything is written *)
Definition save_pickle (fs : files) (o : obj) (filename : pystr) : files * fres unit :=
  match file_ending filename [:: dot_pkl] with
  | Exc e => (fs, Exc e)
  | Ok name =>
    if ~~ writable name then (fs, Exc OSError)
    else let fs0 := write fs name [::] in
         let: (bytes, ok) := dump o in
         (write fs0 name bytes, if ok then Ok tt else Exc PickleError)
  end.
(** lines 181-185 *)
Definition load_pickle (fs : files) (filename : pystr) : fres obj :=
  match fs filename with None => Exc FileNotFoundError | Some b => load b end.
End Pickle.

(** lines 113-130: programs that write to sys.stdout, to another open file, replace sys.stdout, raise, or use suppress_stdout.
    Files are numbers; 0 is os.devnull, what is written there is dropped. *)
Inductive prog :=
  | Print (s : pystr) | PrintTo (h : nat) (s : pystr) | SetStdout (h : nat) | RaiseP (e : fexn)
  | Seq (p q : prog) | TryExcept (p q : prog) | Suppress (p : prog).
Record out := Out { stdout : nat; written : nat -> seq pystr }.
Definition emit (st : out) (h : nat) (s : pystr) : out :=
  Out (stdout st) (fun x => if (x == h) && (h != 0) then rcons (written st x) s else written st x).
Fixpoint run (p : prog) (st : out) : out * fres unit :=
  match p with
  | Print s => (emit st (stdout st) s, Ok tt)
  | PrintTo h s => (emit st h s, Ok tt)
  | SetStdout h => (Out h (written st), Ok tt)
  | RaiseP e => (st, Exc e)
  | Seq p q => let: (st1, r) := run p st in match r with Exc e => (st1, Exc e) | Ok _ => run q st1 end
  | TryExcept p q => let: (st1, r) := run p st in match r with Exc e => run q st1 | Ok v => (st1, Ok v) end
  | Suppress p =>
    let old_stdout := stdout st in
    let: (st1, r) := run p (Out 0 (written st)) in
    (Out old_stdout (written st1), r)
  end.

(** the root logger: handlers (a file or a stream, a level, closed or not), filters (whether they have flush and close), level *)
Inductive hkind := ToFile (name : pystr) | ToStream.
Record handler := Handler { kind : hkind; hlevel : nat }.
Record logger := Logger { handlers : seq handler; filters : seq bool; level : nat; closed : seq handler; logfiles : pystr -> option (seq nat) }.
Definition NOTSET := 0. Definition INFO := 20. Definition ERROR := 40.
(** lines 153-156: the first filter without flush raises, after it was removed *)
Fixpoint drop_filters (l : seq bool) : seq bool * bool :=
  match l with [::] => ([::], true) | b :: l' => if b then drop_filters l' else (l', false) end.
(** lines 144-171; logging.basicConfig adds a handler only when there is none, here always the case. open(.., "w") empties the file *)
Definition init_logger (openable : pystr -> bool) (st : logger) (filename : pystr) (verbose : bool) : logger * fres pystr :=
  match file_ending filename [:: dot_log; dot_txt] with
  | Exc e => (st, Exc e)
  | Ok logfile =>
    let cl := closed st ++ handlers st in
    let: (fl, ok) := drop_filters (filters st) in
    if ~~ ok then (Logger [::] fl (level st) cl (logfiles st), Exc AttributeError)
    else if ~~ openable logfile then (Logger [::] fl (level st) cl (logfiles st), Exc OSError)
    else (Logger [:: Handler (ToFile logfile) NOTSET; Handler ToStream (if verbose then INFO else ERROR)] fl INFO cl
                 (write (logfiles st) logfile [::]),
          Ok logfile)
  end.
(** the handlers that emit a message of level l (logging.Logger.callHandlers) *)
Definition emitters (st : logger) (l : nat) : seq hkind :=
  if level st <= l then [seq kind h | h <- handlers st & hlevel h <= l] else [::].
