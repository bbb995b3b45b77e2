(** What a user expects of the journals, in terms of the history of calls.
    Histories are written latest call first. *)
From Coq Require Import List Bool Arith ZArith String Ascii.
From Verif Require Import JrnModel.
Import ListNotations.
Local Open Scope string_scope.

(** the k-th journal created is journal k: number of creations so far *)
Fixpoint created (h : list op) : nat :=
  match h with
  | [] => 0
  | NewJournal _ _ _ :: h | AddFileJournal _ _ _ _ :: h => S (created h)
  | _ :: h => created h
  end.
(** name and stream given at creation *)
Fixpoint name_of (h : list op) (j : nat) : option string :=
  match h with
  | [] => None
  | NewJournal n _ _ :: h | AddFileJournal n _ _ _ :: h => if (j =? created h)%nat then Some n else name_of h j
  | _ :: h => name_of h j
  end.
Fixpoint has_stream (h : list op) (j : nat) : bool :=
  match h with
  | [] => false
  | NewJournal _ _ o :: h => if (j =? created h)%nat then o else has_stream h j
  | AddFileJournal _ f _ ok :: h =>
      if (j =? created h)%nat then (f =? "stdout") || (f =? "stderr") || ok else has_stream h j
  | _ :: h => has_stream h j
  end.
(** the level of journal [j] for category [c]: what the latest call concerning
    both has said, the level given at creation before that. SetAllPrintLevels does
    not concern the categories reserved for the user. *)
Fixpoint level_in_force (h : list op) (j c : nat) : option Z :=
  match h with
  | [] => None
  | NewJournal _ l _ :: h' | AddFileJournal _ _ l _ :: h' =>
      if (j =? created h')%nat then Some l else level_in_force h' j c
  | SetPrintLevel j' c' l :: h' =>
      if (j =? j')%nat && (c =? c')%nat && (j <? created h')%nat then Some l else level_in_force h' j c
  | SetAllPrintLevels j' l :: h' =>
      if (j =? j')%nat && (c <? J_USER_APPLICATION)%nat && (j <? created h')%nat then Some l else level_in_force h' j c
  | _ :: h' => level_in_force h' j c
  end.
(** some registered journal has the name *)
Definition name_taken (h : list op) (registered : nat -> bool) (n : string) : bool :=
  existsb (fun j => registered j && match name_of h j with Some n' => n' =? n | None => false end) (seq 0 (created h)).
(** journal [j] is known to the journalist: added since the last DeleteAllJournals,
    at a moment when no other journal of its name was there *)
Fixpoint registered (h : list op) (j : nat) : bool :=
  match h with
  | [] => false
  | AddJournal j' :: h' =>
      registered h' j ||
      ((j =? j')%nat && match name_of h' j with Some n => negb (name_taken h' (registered h') n) | None => false end)
  | AddFileJournal n f _ ok :: h' =>
      registered h' j ||
      ((j =? created h')%nat && ((f =? "stdout") || (f =? "stderr") || ok) && negb (name_taken h' (registered h') n))
  | DeleteAllJournals :: _ => false
  | _ :: h' => registered h' j
  end.
(** a message of this level and category goes to journal [j] *)
Definition goes_to (h : list op) (level : Z) (category j : nat) : Prop :=
  registered h j = true /\ has_stream h j = true /\
  exists l, level_in_force h j category = Some l /\ (level <= l)%Z.
Definition goes_to_b (h : list op) (level : Z) (category j : nat) : bool :=
  registered h j && has_stream h j &&
  match level_in_force h j category with Some l => (level <=? l)%Z | None => false end.
Fixpoint spaces2 (n : nat) : string := match n with O => "" | S n => "  " ++ spaces2 n end.
(** everything in journal [j]: the texts of the messages that go to it, in order,
    each once *)
Fixpoint contents (h : list op) (j : nat) : string :=
  match h with
  | [] => ""
  | Printf l c text :: h' => contents h' j ++ (if goes_to_b h' l c j then text else "")
  | PrintfIndented l c n text :: h' => contents h' j ++ (if goes_to_b h' l c j then spaces2 n ++ text else "")
  | _ :: h' => contents h' j
  end.

(** categories are those of the enumeration *)
Definition valid_op (o : op) : Prop :=
  match o with
  | SetPrintLevel _ c _ | Printf _ c _ | PrintfIndented _ c _ _ => c < J_LAST_CATEGORY
  | _ => True
  end.

(** ** breaking a text into lines of at most [max] characters: the lines, and
    whether a line is ended by a newline *)
Definition no_space (w : list ascii) : Prop := ~ In " "%char w.
Inductive wrapped (max : nat) : list ascii -> list (list ascii * bool) -> Prop :=
| W_nothing : wrapped max [] []
(** the rest fits on one line *)
| W_last t : t <> [] -> List.length t <= max -> wrapped max t [(t, false)]
(** the line is broken at a space, which disappears; the part of the following word
    that would fit on the line fills it *)
| W_space w rest next l : (w ++ " "%char :: rest)%list = next -> List.length next > max ->
    List.length w < max -> no_space (firstn (max - List.length w - 1) rest) ->
    wrapped max rest l -> wrapped max next ((w, true) :: l)
(** a single word fills the line exactly *)
| W_exact w rest next l : (w ++ " "%char :: rest)%list = next -> List.length w = max -> no_space w ->
    wrapped max rest l -> wrapped max next ((w, true) :: l)
(** a word too long for the line is split with a hyphen *)
| W_split w c1 c2 rest next l : (w ++ c1 :: c2 :: rest)%list = next -> S (List.length w) = max ->
    no_space (w ++ [c1; c2])%list ->
    wrapped max (c1 :: c2 :: rest) l -> wrapped max next ((w ++ ["-"%char], true)%list :: l).
(** all lines but the first are indented *)
Definition indented (n : nat) (l : list (list ascii * bool)) : list (list ascii * bool) :=
  match l with [] => [] | x :: l => x :: map (fun p => (repeat " "%char n ++ fst p, snd p))%list l end.
