(** * OptSpec: what a user relies on when setting and reading options. *)
From Coq Require Import List ZArith Bool Reals String.
From Verif Require Import Num OptText OptModel.
Import ListNotations.
Open Scope Z_scope.

(** Two option names are the same up to case. *)
Definition same_name (a b : str) : Prop := map tolower a = map tolower b.
Definition same_name_dec (a b : str) : {same_name a b} + {~ same_name a b} := list_eq_dec Z.eq_dec _ _.

(** Text and "may be overwritten" flag stored for a name. *)
Definition stored (s : store) (name : str) : option (str * bool) :=
  match s (map tolower name) with Some e => Some (val e, clob e) | None => None end.

(** Return flag of a call (false if it threw). *)
Definition returned (r : option registry) (s : store) (c : call) : bool :=
  match c with
  | SetString t v a d => fst (set_string r s t v a d)
  | SetNumber t v a d => fst (set_number r s t v a d)
  | SetInteger t v a d => fst (set_integer r s t v a d)
  | SetStringIfUnset t v a d => match set_string_if_unset r s t v a d with Ret (b, _) => b | Throw => false end
  | SetNumberIfUnset t v a d => match set_number_if_unset r s t v a d with Ret (b, _) => b | Throw => false end
  | SetIntegerIfUnset t v a d => match set_integer_if_unset r s t v a d with Ret (b, _) => b | Throw => false end
  | Unset t => fst (unset s t)
  | GetString t p => match get_string r s t p with Ret (b, _, _) => b | Throw => false end
  | GetEnum t p => match get_enum r s t p with Ret (b, _, _) => b | Throw => false end
  | GetBool t p => match get_bool r s t p with Ret (b, _, _) => b | Throw => false end
  | GetNumber t p => match get_number r s t p with Ret (b, _, _) => b | Throw => false end
  | GetInteger t p => match get_integer r s t p with Ret (b, _, _) => b | Throw => false end
  | Clear => true
  end.
(** Calls together with what they returned. *)
Fixpoint trace (r : option registry) (s : store) (l : list call) : list (call * bool) :=
  match l with [] => [] | c :: l' => (c, returned r s c) :: trace r (step r s c) l' end.

(** The life of one option: a value is replaced only by a Set call for this name that returned true,
    and only if the present value may be overwritten. *)
Definition spec_write (name t text : str) (allow ret : bool) (cur : option (str * bool)) : option (str * bool) :=
  if same_name_dec t name then
    if ret then match cur with Some (_, false) => cur | _ => Some (text, allow) end else cur
  else cur.
Definition spec_step (name : str) (cur : option (str * bool)) (cr : call * bool) : option (str * bool) :=
  let '(c, ret) := cr in
  match c with
  | SetString t v a _ => spec_write name t v a ret cur
  | SetNumber t v a _ => spec_write name t (fmt_g v) a ret cur
  | SetInteger t v a _ => spec_write name t (fmt_d v) a ret cur
  | SetStringIfUnset t v a _ => match cur with None => spec_write name t v a ret cur | Some _ => cur end
  | SetNumberIfUnset t v a _ => match cur with None => spec_write name t (fmt_g v) a ret cur | Some _ => cur end
  | SetIntegerIfUnset t v a _ => match cur with None => spec_write name t (fmt_d v) a ret cur | Some _ => cur end
  | Unset t => if same_name_dec t name then match cur with Some (_, false) => cur | _ => None end else cur
  | Clear => None
  | _ => cur
  end.
Definition last_write (name : str) (tr : list (call * bool)) : option (str * bool) := fold_left (spec_step name) tr None.

(** The text a Get with a prefix refers to. *)
Definition user_text (s : store) (t p : str) : option str :=
  match p, stored s (p ++ t) with
  | _ :: _, Some (v, _) => Some v
  | _, _ => match stored s t with Some (v, _) => Some v | None => None end
  end.

(** The registered option meant by a (possibly prefixed) name: the part after the last dot. *)
Definition base_name (name tag : str) : Prop :=
  ~ In 46 tag /\ (name = tag \/ exists prefix, name = prefix ++ 46 :: tag).
Definition registered (rg : registry) (name : str) (o : regopt) : Prop :=
  exists tag, base_name name tag /\ rg tag = Some o.

Open Scope R_scope.
Definition in_range (o : regopt) (x : R) : Prop :=
  (has_lower o = true -> if lower_strict o then key (lower o) < x else key (lower o) <= x) /\
  (has_upper o = true -> if upper_strict o then x < key (upper o) else x <= key (upper o)).
Definition in_range_int (o : regopt) (z : Z) : Prop :=
  (has_lower o = true -> key (lower o) <= IZR z) /\ (has_upper o = true -> IZR z <= key (upper o)).
Definition bounds_not_nan (o : regopt) : Prop := nnan (lower o) = false /\ nnan (upper o) = false.
Definition same_ci (a b : str) : Prop := map toupper a = map toupper b.
Definition string_allowed (o : regopt) (v : str) : Prop := exists e, In e (valid_strings o) /\ (e = lit "*" \/ same_ci e v).
Close Scope R_scope.

(** ** Option files *)
(** Between tokens: white space and comments. *)
Inductive blank : str -> Prop :=
| blank_nil : blank []
| blank_space c s : isspace c = true -> blank s -> blank (c :: s)
| blank_comment com s : ~ In 10 com -> Z.of_nat (List.length com) < COMMENT_MAX -> blank s -> blank (35 :: com ++ 10 :: s).
(** The text of a token: bare or in quotes. *)
Inductive token_text : str -> str -> Prop :=
| bare c t : isspace c = false -> c <> 35 -> c <> 34 -> Forall (fun x => isspace x = false) t -> token_text (c :: t) (c :: t)
| quoted t : t <> [] -> ~ In 34 t -> token_text t (34 :: t ++ [34]).
(** A file with a list of tokens; tokens are separated by at least one white space character. *)
Inductive file : list str -> str -> Prop :=
| file_end b : blank b -> file [] b
| file_end_comment b com : blank b -> ~ In 10 com -> Z.of_nat (List.length com) < COMMENT_MAX -> file [] (b ++ 35 :: com)
(* an unterminated quote: no further token is found *)
| file_open b t : blank b -> ~ In 34 t -> file [] (b ++ 34 :: t)
| file_last b t x : blank b -> token_text t x -> file [t] (b ++ x)
| file_tok b t x c ts rest : blank b -> token_text t x -> isspace c = true -> file ts rest -> file (t :: ts) (b ++ x ++ c :: rest).
(** Setting the options named by consecutive pairs of tokens. *)
Fixpoint set_pairs (r : option registry) (s : store) (allow : bool) (ts : list str) : out (bool * store) :=
  match ts with
  | [] => Ret (true, s)
  | [_] => Ret (false, s)
  | t :: v :: ts' => match set_from_text r s t v allow with Throw => Throw | Ret s' => set_pairs r s' allow ts' end
  end.
