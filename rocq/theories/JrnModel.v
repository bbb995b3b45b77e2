(** Model of message output:
    - /repo/src/Common/IpJournalist.cpp (Journalist, Journal, FileJournal)
    - /repo/src/Interfaces/IpIpoptApplication.cpp:72-86, 161-235, 590-604, 950-973
      (the journals an application sets up)

    Journals are objects, named by the order in which they are created; the
    journalist holds a list of pointers to them (IpJournalist.hpp journals_). What is
    written to a journal is a string; the formatting of the arguments is done before
    (Printf receives the formatted text). Simplifications: a journal writes to its own
    stream (two journals on the same file are not related); StreamJournal behaves like
    FileJournal; closing files is not modelled; the debug assertions are off. *)
From Coq Require Import List Bool Arith ZArith String Ascii.
Import ListNotations.
Local Open Scope string_scope.

(** EJournalCategory, IpJournalist.hpp:50-85: numbered from 0 *)
Definition J_DBG : nat := 0.
Definition J_MAIN : nat := 2.
Definition J_INITIALIZATION : nat := 3.
Definition J_USER_APPLICATION : nat := 14.
Definition J_LAST_CATEGORY : nat := 32.
(** EJournalLevel, IpJournalist.hpp:31-47 *)
Definition J_INSUPPRESSIBLE : Z := (-1)%Z.
Definition J_NONE : Z := 0%Z.
Definition J_ERROR : Z := 1%Z.
Definition J_ITERSUMMARY : Z := 5%Z.
Definition J_ALL : Z := 12%Z.

(** a Journal: name_, print_levels_ (IpJournalist.hpp:395-400), whether the stream
    is there (file_ != NULL), and what was written *)
Record journal := Jrn { j_name : string; j_levels : list Z; j_open : bool; j_out : string }.
(** all journals that exist, and journals_ (IpJournalist.hpp:275) *)
Record state := St { heap : list journal; regs : list nat }.
Definition start : state := St [] [].

Fixpoint set_nth {A} (i : nat) (a : A) (l : list A) : list A :=
  match i, l with O, _ :: l => a :: l | S i, b :: l => b :: set_nth i a l | _, [] => [] end.
Definition upd (s : state) (id : nat) (f : journal -> journal) : state :=
  match nth_error (heap s) id with Some j => St (set_nth id (f j) (heap s)) (regs s) | None => s end.

(** Journal::Journal, IpJournalist.cpp:339-350 *)
Definition new_journal (name : string) (default_level : Z) (open : bool) : journal :=
  Jrn name (repeat default_level J_LAST_CATEGORY) open "".
(** Journal::IsAccepted, 360-371 *)
Definition is_accepted (j : journal) (category : nat) (level : Z) : bool :=
  match nth_error (j_levels j) category with Some l => (level <=? l)%Z | None => false end.
(** Journal::SetPrintLevel, 373-379 *)
Definition set_level (category : nat) (level : Z) (j : journal) : journal :=
  Jrn (j_name j) (set_nth category level (j_levels j)) (j_open j) (j_out j).
(** Journal::SetAllPrintLevels, 381-389: from J_DBG up to, not including,
    J_USER_APPLICATION *)
Definition set_all_levels (level : Z) (j : journal) : journal :=
  fold_left (fun j c => set_level c level j) (seq J_DBG (J_USER_APPLICATION - J_DBG)) j.
(** FileJournal::PrintImpl / PrintfImpl, 446-473 *)
Definition write (text : string) (j : journal) : journal :=
  if j_open j then Jrn (j_name j) (j_levels j) (j_open j) (j_out j ++ text) else j.

(** Journalist::VPrintf, 163-188 *)
Definition vprintf (level : Z) (category : nat) (text : string) (s : state) : state :=
  fold_left (fun s id => match nth_error (heap s) id with
    | Some j => if is_accepted j category level then upd s id (write text) else s
    | None => s end) (regs s) s.
(** Journalist::VPrintfIndented, 190-223 *)
Definition vprintf_indented (level : Z) (category indent_level : nat) (text : string) (s : state) : state :=
  fold_left (fun s id => match nth_error (heap s) id with
    | Some j => if is_accepted j category level then
        upd (Nat.iter indent_level (fun s => upd s id (write "  ")) s) id (write text) else s
    | None => s end) (regs s) s.
(** Journalist::ProduceOutput, 225-238 *)
Definition produce_output (level : Z) (category : nat) (s : state) : bool :=
  existsb (fun id => match nth_error (heap s) id with Some j => is_accepted j category level | None => false end) (regs s).
(** Journalist::GetJournal, 285-304 *)
Definition get_journal (name : string) (s : state) : option nat :=
  find (fun id => match nth_error (heap s) id with Some j => j_name j =? name | None => false end) (regs s).
(** Journalist::AddJournal, 240-256 *)
Definition add_journal (id : nat) (s : state) : bool * state :=
  match nth_error (heap s) id with
  | None => (false, s)
  | Some j => match get_journal (j_name j) s with
              | Some _ => (false, s)
              | None => (true, St (heap s) (regs s ++ [id]))
              end
  end.
(** FileJournal::Open, 411-444; [fopen_ok]: fopen returned a file *)
Definition opens (fname : string) (fopen_ok : bool) : bool :=
  if "stdout" =? fname then true else if "stderr" =? fname then true else fopen_ok.
(** Journalist::AddFileJournal, 258-275 *)
Definition add_file_journal (name fname : string) (default_level : Z) (fopen_ok : bool) (s : state) : option nat * state :=
  let id := List.length (heap s) in
  let s1 := St (heap s ++ [new_journal name default_level (opens fname fopen_ok)]) (regs s) in
  if opens fname fopen_ok then
    let (added, s2) := add_journal id s1 in ((if added then Some id else None), s2)
  else (None, s1).
(** Journalist::DeleteAllJournals, 306-313 *)
Definition delete_all_journals (s : state) : state := St (heap s) [].

(** calls of the journalist and of journals a user keeps a pointer to *)
Inductive op :=
| NewJournal (name : string) (default_level : Z) (open : bool)
| AddJournal (id : nat)
| AddFileJournal (name fname : string) (default_level : Z) (fopen_ok : bool)
| SetPrintLevel (id category : nat) (level : Z)
| SetAllPrintLevels (id : nat) (level : Z)
| DeleteAllJournals
| Printf (level : Z) (category : nat) (text : string)
| PrintfIndented (level : Z) (category indent_level : nat) (text : string).
Definition step (s : state) (o : op) : state :=
  match o with
  | NewJournal name l open => St (heap s ++ [new_journal name l open]) (regs s)
  | AddJournal id => snd (add_journal id s)
  | AddFileJournal name fname l ok => snd (add_file_journal name fname l ok s)
  | SetPrintLevel id c l => upd s id (set_level c l)
  | SetAllPrintLevels id l => upd s id (set_all_levels l)
  | DeleteAllJournals => delete_all_journals s
  | Printf l c text => vprintf l c text s
  | PrintfIndented l c n text => vprintf_indented l c n text s
  end.
Definition run (h : list op) (s : state) : state := fold_left step h s.

(** ** IpoptApplication *)
(** 82-86: constructor *)
Definition app_start (console : bool) : state :=
  if console then
    match add_file_journal "console" "stdout" J_ITERSUMMARY true start with
    | (Some id, s) => upd s id (set_level J_DBG J_NONE)
    | (None, s) => s
    end
  else start.
(** 950-973: OpenOutputFile *)
Definition open_output_file (file_name : string) (print_level : Z) (fopen_ok : bool) (s : state) : bool * state :=
  let (jrnl, s) := match get_journal ("OutputFile:" ++ file_name) s with
                   | Some id => (Some id, s)
                   | None => add_file_journal ("OutputFile:" ++ file_name) file_name print_level fopen_ok s
                   end in
  match jrnl with
  | None => (false, s)
  | Some id => (true, upd s id (set_level J_DBG J_NONE))
  end.
(** the options read: suppress_all_output, print_level, output_file ("" for none),
    file_print_level if set *)
Record outopts := OO { oo_suppress : bool; oo_level : Z; oo_file : string; oo_file_level : option Z }.
(** 184-192 and 596-604 *)
Definition reset_console (print_level : Z) (s : state) : state :=
  match get_journal "console" s with
  | Some id => upd (upd s id (set_all_levels print_level)) id (set_level J_DBG J_NONE)
  | None => s
  end.
(** 175-235: the output part of Initialize; false: returns Invalid_Option *)
Definition initialize (o : outopts) (fopen_ok : bool) (s : state) : bool * state :=
  if oo_suppress o then (true, delete_all_journals s)
  else
    let s := reset_console (oo_level o) s in
    if negb (oo_file o =? "") then
      let file_print_level := match oo_file_level o with Some l => l | None => oo_level o end in
      let (opened, s) := open_output_file (oo_file o) file_print_level fopen_ok s in
      if opened then (true, s)
      else (false, vprintf J_ERROR J_INITIALIZATION ("Error opening output file """ ++ oo_file o ++ """" ++ String "010" "") s)
    else (true, s).

(** ** Journalist::PrintStringOverLines, 41-113 *)
(** the buffer of 1024 characters; None: access outside *)
Definition bset (buf : list ascii) (i : nat) (c : ascii) : option (list ascii) :=
  if (i <? List.length buf)%nat then Some (set_nth i c buf) else None.
Definition NUL : ascii := "000".
(** what "%s" prints *)
Fixpoint cstr (buf : list ascii) : list ascii :=
  match buf with [] => [] | c :: buf => if Ascii.eqb c NUL then [] else c :: cstr buf end.
Local Notation "'do' x <- e ; f" := (match e with Some x => f | None => None end) (at level 200, x pattern, e at level 100, f at level 200).
(** 60-72: the inner loop; [k] = max_length - curr_length *)
Fixpoint copy_chars (k : nat) (line : list ascii) (line_pos last_word_pos buffer_pos : nat) (buf : list ascii) :
  option (nat * nat * nat * list ascii) :=
  match k with
  | O => Some (line_pos, last_word_pos, buffer_pos, buf)
  | S k => match nth_error line line_pos with
           | None => Some (line_pos, last_word_pos, buffer_pos, buf)
           | Some c => do buf <- bset buf buffer_pos c;
                       let last_word_pos := if Ascii.eqb c " " then S line_pos else last_word_pos in
                       copy_chars k line (S line_pos) last_word_pos (S buffer_pos) buf
           end
  end.
Inductive result := Done (out : list (list ascii * bool)) | OutOfBounds | Running.
(** 102-108 *)
Fixpoint put_indent (i n : nat) (buf : list ascii) : option (list ascii) :=
  match n with O => Some buf | S n => do buf <- bset buf i " "; put_indent (S i) n buf end.
(** 57-112: one round of the outer loop. The result is what Printf is called with
    (true: with a newline after it) and, unless the loop is left by break, the state
    for the next round. *)
Definition round (indent_spaces max_length : nat) (line : list ascii)
  (last_line_pos last_word_pos buffer_pos : nat) (first_line : bool) (buf : list ascii) :
  option ((list ascii * bool) * option (nat * nat * nat * bool * list ascii)) :=
  do (line_pos, last_word_pos, buffer_pos, buf) <- copy_chars max_length line last_line_pos last_word_pos buffer_pos buf;
  if (line_pos =? List.length line)%nat then
    do buf <- bset buf buffer_pos NUL; Some ((cstr buf, false), None)
  else
    do (buf, last_line_pos, last_word_pos) <-
      (if (last_word_pos =? last_line_pos)%nat then
         if Ascii.eqb (nth line_pos line NUL) " " then
           do buf <- bset buf buffer_pos NUL; Some (buf, S line_pos, S line_pos)
         else
           match buffer_pos with
           | O => None
           | S b => do buf <- bset buf b "-";
                    do buf <- bset buf buffer_pos NUL;
                    match line_pos with O => None | S p => Some (buf, p, p) end
           end
       else
         if (line_pos - last_word_pos <? buffer_pos)%nat then
           do buf <- bset buf (buffer_pos - (line_pos - last_word_pos) - 1) NUL;
           Some (buf, last_word_pos, last_word_pos)
         else None);
    let out := (cstr buf, true) in
    do buf <- (if first_line then put_indent 0 indent_spaces buf else Some buf);
    Some (out, Some (last_line_pos, last_word_pos, indent_spaces, false, buf)).
Fixpoint over_lines (fuel indent_spaces max_length : nat) (line : list ascii)
  (last_line_pos last_word_pos buffer_pos : nat) (first_line : bool) (buf : list ascii)
  (out : list (list ascii * bool)) : result :=
  if (last_line_pos <? List.length line)%nat then
    match fuel with
    | O => Running
    | S fuel =>
        match round indent_spaces max_length line last_line_pos last_word_pos buffer_pos first_line buf with
        | None => OutOfBounds
        | Some (o, None) => Done (out ++ [o])%list
        | Some (o, Some (ll, lw, bp, fl, buf)) =>
            over_lines fuel indent_spaces max_length line ll lw bp fl buf (out ++ [o])%list
        end
    end
  else Done out.
(** [buf0]: the uninitialised buffer; [fuel]: number of rounds looked at *)
Definition print_over_lines (fuel indent_spaces max_length : nat) (line buf0 : list ascii) : result :=
  over_lines fuel indent_spaces max_length line 0 0 0 true buf0 [].
