(** * OptModel: registered options and the option store.

    Models /repo/src/Common/IpRegOptions.hpp|.cpp (validity tests, lookup) and
    /repo/src/Common/IpOptionsList.hpp|.cpp.
    Simplifications: messages to the journalist are omitted; a thrown exception (OPTION_INVALID and
    the two others) is the outcome [Throw]; std::map is a partial function; descriptions, categories
    and the "advanced" flag of registered options are omitted; strings hold no NUL byte (the C library
    conversions stop there). [dont_print] is stored but PrintList/PrintUserOptions are not modelled. *)
From Coq Require Import List ZArith Bool String.
From Verif Require Import Num OptText.
Import ListNotations.
Open Scope Z_scope.

Inductive out (A : Type) := Ret (a : A) | Throw.
Arguments Ret {A} a.
Arguments Throw {A}.
Definition obind {A B} (x : out A) (f : A -> out B) : out B := match x with Ret a => f a | Throw => Throw end.

(** ** Registered options: IpRegOptions.hpp 634-661 *)
Inductive otype := OT_Number | OT_Integer | OT_String | OT_Unknown.
Definition otype_eqb (a b : otype) : bool :=
  match a, b with OT_Number, OT_Number | OT_Integer, OT_Integer | OT_String, OT_String | OT_Unknown, OT_Unknown => true | _, _ => false end.
Record regopt := mkReg {
  ty : otype; has_lower : bool; lower_strict : bool; lower : num; has_upper : bool; upper_strict : bool; upper : num;
  default_number : num; valid_strings : list str; default_string : str; default_integer : Z (* (Index) default_number_ *) }.
(** registered_options_, keyed by name. *)
Definition registry := str -> option regopt.

(** IpRegOptions.hpp 555-569 [IsValidNumberSetting]. *)
Definition valid_number (o : regopt) (v : num) : bool :=
  if has_lower o && ((lower_strict o && nle v (lower o)) || (negb (lower_strict o) && nlt v (lower o))) then false
  else if has_upper o && ((upper_strict o && nge v (upper o)) || (negb (upper_strict o) && ngt v (upper o))) then false
  else true.
(** IpRegOptions.hpp 575-589 [IsValidIntegerSetting]; the Index is converted to Number for the comparison. *)
Definition valid_integer (o : regopt) (v : Z) : bool :=
  if has_lower o && nlt (nofZ v) (lower o) then false
  else if has_upper o && ngt (nofZ v) (upper o) then false
  else true.
(** IpRegOptions.cpp 775-803 [string_equal_insensitive]. *)
Fixpoint string_equal_insensitive (a b : str) : bool :=
  match a, b with
  | [], [] => true
  | x :: a', y :: b' => (toupper x =? toupper y) && string_equal_insensitive a' b'
  | _, _ => false
  end.
Definition star : str := [42].
(** IpRegOptions.cpp 712-726 [IsValidStringSetting]. *)
Definition valid_string (o : regopt) (v : str) : bool :=
  existsb (fun e => str_eqb e star || string_equal_insensitive e v) (valid_strings o).
(** IpRegOptions.cpp 728-748 [MapStringSetting]: the last match wins. *)
Definition map_string (o : regopt) (v : str) : str :=
  fold_left (fun m e => if str_eqb e star then v else if string_equal_insensitive e v then e else m) (valid_strings o) [].
(** IpRegOptions.cpp 750-773 [MapStringSettingToEnum]. *)
Fixpoint map_enum_from (cnt : Z) (l : list str) (v : str) : out Z :=
  match l with
  | [] => Throw
  | e :: l' => if str_eqb e star then Throw else if string_equal_insensitive e v then Ret cnt else map_enum_from (cnt + 1) l' v
  end.
Definition map_enum (o : regopt) (v : str) : out Z := map_enum_from 0 (valid_strings o) v.

(** The text after the last '.'. *)
Fixpoint after_dot (s : str) (acc : str) : str :=
  match s with [] => acc | c :: s' => after_dot s' (if c =? 46 then s' else acc) end.
(** IpRegOptions.cpp 1352-1374 [GetOption]: the prefix up to the last '.' is ignored; the rest is
    looked up case-sensitively. *)
Definition get_option (r : registry) (name : str) : option regopt := r (after_dot name name).

(** ** The store: IpOptionsList.hpp 35-146 [OptionValue] *)
Record entry := mkE { val : str; counter : Z; clob : bool; noprint : bool }.
Definition store := str -> option entry.
Definition empty : store := fun _ => None.

(** IpOptionsList.cpp 638-648 [lowercase]. *)
Definition lowercase (t : str) : str := map tolower t.
Definition put (s : store) (k : str) (e : option entry) : store := fun x => if str_eqb x k then e else s x.
(** IpOptionsList.hpp 93-98 [GetValue] increments the use counter. *)
Definition bump (s : store) (k : str) : store :=
  match s k with Some e => put s k (Some (mkE (val e) (counter e + 1) (clob e) (noprint e))) | None => s end.

(** IpOptionsList.cpp 839-853 [will_allow_clobber]. *)
Definition will_allow_clobber (s : store) (t : str) : bool :=
  match s (lowercase t) with Some e => clob e | None => true end.

(** Common end of the three Set methods (80-99, 176-195, 263-283): true is returned in both cases. The
    warning message reads the old value and so bumps its counter. *)
Definition finish_set (s : store) (t v : str) (allow dont_print : bool) : bool * store :=
  if will_allow_clobber s t then (true, put s (lowercase t) (Some (mkE v 0 allow dont_print)))
  else (true, bump s (lowercase t)).

(** [None] is a null reg_options_ pointer. *)
Definition set_checked (r : option registry) (s : store) (t : str) (want : otype) (ok : regopt -> bool) (v : str) (allow dp : bool) : bool * store :=
  match r with
  | None => finish_set s t v allow dp
  | Some rg => match get_option rg t with
               | None => (false, s)
               | Some o => if negb (otype_eqb (ty o) want) then (false, s)
                           else if negb (ok o) then (false, s) else finish_set s t v allow dp
               end
  end.
(** IpOptionsList.cpp 18-109, 111-196, 198-284. *)
Definition set_string (r : option registry) s t v allow dp := set_checked r s t OT_String (fun o => valid_string o v) v allow dp.
Definition set_number (r : option registry) s t (v : num) allow dp := set_checked r s t OT_Number (fun o => valid_number o v) (fmt_g v) allow dp.
Definition set_integer (r : option registry) s t (v : Z) allow dp := set_checked r s t OT_Integer (fun o => valid_integer o v) (fmt_d v) allow dp.

(** IpOptionsList.cpp 286-305 [UnsetValue]. *)
Definition unset (s : store) (t : str) : bool * store :=
  if will_allow_clobber s t
  then (match s (lowercase t) with Some _ => true | None => false end, put s (lowercase t) None)
  else (false, bump s (lowercase t)).

(** IpOptionsList.cpp 804-837 [find_tag]: value and store with the counter bumped. *)
Definition find_tag (s : store) (t p : str) : option str * store :=
  let lookup k := match s k with Some e => (Some (val e), bump s k) | None => (None, s) end in
  match p with
  | [] => lookup (lowercase t)
  | _ => match s (lowercase (p ++ t)) with
         | Some _ => lookup (lowercase (p ++ t))
         | None => lookup (lowercase t)
         end
  end.

Definition typed (r : option registry) (t : str) (want : otype) : out (option regopt) :=
  match r with
  | None => Ret None
  | Some rg => match get_option rg t with
               | None => Throw
               | Some o => if otype_eqb (ty o) want then Ret (Some o) else Throw
               end
  end.

(** IpOptionsList.cpp 355-410 [GetStringValue]: found flag, value ([None]: argument left unchanged), store. *)
Definition get_string (r : option registry) (s : store) (t p : str) : out (bool * option str * store) :=
  let '(f, s') := find_tag s t p in
  obind (typed r t OT_String) (fun o =>
    Ret (match f, o with
         | Some v, Some o => (true, Some (map_string o v), s')
         | None, Some o => (false, Some (default_string o), s')
         | Some v, None => (true, Some v, s')
         | None, None => (false, None, s')
         end)).

(** IpOptionsList.cpp 412-468 [GetEnumValue]. *)
Definition get_enum (r : option registry) (s : store) (t p : str) : out (bool * option Z * store) :=
  let '(f, s') := find_tag s t p in
  obind (typed r t OT_String) (fun o =>
    match f, o with
    | Some v, Some o => obind (map_enum o v) (fun k => Ret (true, Some k, s'))
    | None, Some o => obind (map_enum o (default_string o)) (fun k => Ret (false, Some k, s'))
    | Some _, None => Ret (true, None, s')
    | None, None => Ret (false, None, s')
    end).

Definition is_one_of (v : str) (l : list string) : bool := existsb (fun x => str_eqb v (lit x)) l.
(** IpOptionsList.cpp 470-492 [GetBoolValue] (str is empty if left unchanged). *)
Definition get_bool (r : option registry) (s : store) (t p : str) : out (bool * bool * store) :=
  obind (get_string r s t p) (fun '(f, v, s') =>
    let x := match v with Some x => x | None => [] end in
    if is_one_of x ["no"; "false"; "off"]%string then Ret (f, false, s')
    else if is_one_of x ["yes"; "true"; "on"]%string then Ret (f, true, s') else Throw).

Definition d_to_e (s : str) : str := map (fun c => if (c =? 100) || (c =? 68) then 101 else c) s.
(** The test on p_end: 553, 620, 760, 776. *)
Definition end_ok (rest : str) : bool := match rest with [] => true | c :: _ => isspace c end.
Definition text_number (v : str) : option num := let '(x, rest) := strtod (d_to_e v) in if end_ok rest then Some x else None.
Definition text_integer (v : str) : option Z := let '(x, rest) := strtol v in if end_ok rest then Some (to_int x) else None.

(** IpOptionsList.cpp 494-570 [GetNumericValue]. *)
Definition get_number (r : option registry) (s : store) (t p : str) : out (bool * option num * store) :=
  obind (typed r t OT_Number) (fun o =>
    let '(f, s') := find_tag s t p in
    match f, o with
    | Some v, _ => match text_number v with Some x => Ret (true, Some x, s') | None => Throw end
    | None, Some o => Ret (false, Some (default_number o), s')
    | None, None => Ret (false, None, s')
    end).
(** IpOptionsList.cpp 572-636 [GetIntegerValue]. *)
Definition get_integer (r : option registry) (s : store) (t p : str) : out (bool * option Z * store) :=
  obind (typed r t OT_Integer) (fun o =>
    let '(f, s') := find_tag s t p in
    match f, o with
    | Some v, _ => match text_integer v with Some x => Ret (true, Some x, s') | None => Throw end
    | None, Some o => Ret (false, Some (default_integer o), s')
    | None, None => Ret (false, None, s')
    end).

(** IpOptionsList.cpp 307-353 [Set...ValueIfUnset]. *)
Definition set_string_if_unset r s t v allow dp : out (bool * store) :=
  obind (get_string r s t []) (fun '(f, _, s') => Ret (if f : bool then (true, s') else set_string r s' t v allow dp)).
Definition set_number_if_unset r s t v allow dp : out (bool * store) :=
  obind (get_number r s t []) (fun '(f, _, s') => Ret (if f : bool then (true, s') else set_number r s' t v allow dp)).
Definition set_integer_if_unset r s t v allow dp : out (bool * store) :=
  obind (get_integer r s t []) (fun '(f, _, s') => Ret (if f : bool then (true, s') else set_integer r s' t v allow dp)).

(** ** Reading an option file *)

(** std::istream: remaining characters and the eof flag. *)
Record stream := mkIs { left_ : str; eof : bool }.
(** [char c = is.get()]: EOF is the byte 255 after the conversion to char. *)
Definition get (i : stream) : Z * stream :=
  if eof i then (255, i) else match left_ i with [] => (255, mkIs [] true) | c :: l => (c, mkIs l false) end.
(** [is.ignore(n, '\n')]. *)
Fixpoint ignore_l (n : Z) (l : str) : stream :=
  if n <=? 0 then mkIs l false
  else match l with [] => mkIs [] true | c :: l' => if c =? 10 then mkIs l' false else ignore_l (n - 1) l' end.
Definition ignore (n : Z) (i : stream) : stream := if eof i then i else ignore_l n (left_ i).
Definition COMMENT_MAX : Z := 10000000.

(** IpOptionsList.cpp 855-904 [readnexttoken]. [fuel] bounds the two loops; [None] means it ran out
    (shown impossible). *)
Fixpoint skip_loop (fuel : nat) (c : Z) (i : stream) : option (Z * stream) :=
  if negb (eof i) && (isspace c || (c =? 35)) then
    match fuel with
    | O => None
    | S f => let i1 := if c =? 35 then ignore COMMENT_MAX i else i in let '(c1, i2) := get i1 in skip_loop f c1 i2
    end
  else Some (c, i).
Fixpoint token_loop (fuel : nat) (inq : bool) (c : Z) (i : stream) (tok : str) : option (bool * str * stream) :=
  if negb (eof i) && (inq || negb (isspace c)) then
    match fuel with
    | O => None
    | S f =>
      let '(c1, i1) := get i in
      if inq && (c1 =? 34)
      then let '(c2, i2) := if negb (eof i1) then get i1 else (c1, i1) in token_loop f false c2 i2 (tok ++ [c])
      else token_loop f inq c1 i1 (tok ++ [c])
    end
  else Some (inq, tok, i).
Definition readnexttoken (i : stream) : option (bool * str * stream) :=
  let fuel := S (List.length (left_ i)) in
  let '(c, i0) := get i in
  match skip_loop fuel c i0 with
  | None => None
  | Some (c, i1) =>
    let inq := c =? 34 in
    if inq && eof i1 then Some (false, [], i1)
    else let '(c, i2) := if inq then get i1 else (c, i1) in
      if eof i2 then Some (false, [], i2)
      else match token_loop fuel inq c i2 [] with
           | None => None
           | Some (inq', tok, i3) => Some (negb inq', tok, i3)
           end
  end.

(** Setting one option read from a file (IpOptionsList.cpp 728-800). *)
Definition set_from_text (r : option registry) (s : store) (tag value : str) (allow : bool) : out store :=
  let chk (x : bool * store) : out store := if fst x then Ret (snd x) else Throw in
  match r with
  | None => chk (set_string r s tag value allow false)
  | Some rg =>
    match get_option rg tag with
    | None => Throw
    | Some o =>
      match ty o with
      | OT_String => chk (set_string r s tag value allow false)
      | OT_Number => match text_number value with None => Throw | Some x => chk (set_number r s tag x allow false) end
      | OT_Integer => match text_integer value with None => Throw | Some x => chk (set_integer r s tag x allow false) end
      | OT_Unknown => Ret s
      end
    end
  end.

(** IpOptionsList.cpp 694-802 [ReadFromStream]: return value and store. The outer [option] is [None] if
    fuel ran out (shown impossible). *)
Fixpoint read_loop (fuel : nat) (r : option registry) (s : store) (i : stream) (allow : bool) : option (out (bool * store)) :=
  match fuel with
  | O => None
  | S f =>
    match readnexttoken i with
    | None => None
    | Some (false, _, _) => Some (Ret (true, s))
    | Some (true, tag, i1) =>
      match readnexttoken i1 with
      | None => None
      | Some (false, _, _) => Some (Ret (false, s))
      | Some (true, value, i2) =>
        match set_from_text r s tag value allow with
        | Throw => Some Throw
        | Ret s' => read_loop f r s' i2 allow
        end
      end
    end
  end.
Definition read_from_stream (r : option registry) (s : store) (text : str) (allow : bool) : option (out (bool * store)) :=
  read_loop (S (List.length text)) r s (mkIs text false) allow.

(** ** API calls *)
Inductive call :=
| SetString (t v : str) (allow dp : bool) | SetNumber (t : str) (v : num) (allow dp : bool) | SetInteger (t : str) (v : Z) (allow dp : bool)
| SetStringIfUnset (t v : str) (allow dp : bool) | SetNumberIfUnset (t : str) (v : num) (allow dp : bool) | SetIntegerIfUnset (t : str) (v : Z) (allow dp : bool)
| Unset (t : str)
| GetString (t p : str) | GetEnum (t p : str) | GetBool (t p : str) | GetNumber (t p : str) | GetInteger (t p : str)
| Clear.
Definition drop_val {A B} (x : out (A * B * store)) (s : store) : store := match x with Ret (_, _, s') => s' | Throw => s end.
Definition drop_val2 {A} (x : out (A * store)) (s : store) : store := match x with Ret (_, s') => s' | Throw => s end.
(** The store after a call. A Get that throws may also have bumped a use counter; this is not modelled. *)
Definition step (r : option registry) (s : store) (c : call) : store :=
  match c with
  | SetString t v a d => snd (set_string r s t v a d)
  | SetNumber t v a d => snd (set_number r s t v a d)
  | SetInteger t v a d => snd (set_integer r s t v a d)
  | SetStringIfUnset t v a d => drop_val2 (set_string_if_unset r s t v a d) s
  | SetNumberIfUnset t v a d => drop_val2 (set_number_if_unset r s t v a d) s
  | SetIntegerIfUnset t v a d => drop_val2 (set_integer_if_unset r s t v a d) s
  | Unset t => snd (unset s t)
  | GetString t p => drop_val (get_string r s t p) s
  | GetEnum t p => drop_val (get_enum r s t p) s
  | GetBool t p => drop_val (get_bool r s t p) s
  | GetNumber t p => drop_val (get_number r s t p) s
  | GetInteger t p => drop_val (get_integer r s t p) s
  | Clear => empty                                                   (* IpOptionsList.hpp 187-190 clear() *)
  end.
Definition run (r : option registry) (l : list call) : store := fold_left (step r) l empty.
