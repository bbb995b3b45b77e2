(** * C08-C12: options. *)
From Coq Require Import List ZArith Bool Reals String Lia Lra.
From Verif Require Import Num OptText OptModel OptSpec OptProofs OptFile.
Import ListNotations.
Open Scope Z_scope.

(** ** C08 *)
(** After every history of calls, what is stored for a name is decided by the calls for that name
    (ignoring case) that returned true, the last permitted one winning. *)
Theorem C08_last_permitted_write_wins : forall (r : option registry) (calls : list call) (name : str),
  stored (run r calls) name = last_write name (trace r empty calls).
Proof. exact run_spec. Qed.

(** A value set with allow_clobber=false stays until the whole list is cleared. *)
Theorem C08_unclobberable_is_final : forall r calls name v s, (forall c, In c calls -> c <> Clear) ->
  stored s name = Some (v, false) -> stored (fold_left (step r) calls s) name = Some (v, false).
Proof. exact (fun r calls name v s => locked_forever r calls name v s). Qed.

(** A refused overwrite is not reported: Set returns true although the value was not taken. *)
Theorem C08_refused_write_reported_refuted : exists (t v1 v2 : str), v1 <> v2 /\
  let s := run None [SetString t v1 false false] in
  returned None s (SetString t v2 true false) = true /\
  result_of (get_string None (step None s (SetString t v2 true false)) t []) = Some (true, Some v1).
Proof. exists (lit "a"), (lit "x"), (lit "y"). split; [discriminate|]. split; reflexivity. Qed.

(** With registered options, names are matched case-sensitively by Set: another spelling is refused. *)
Definition num_opt (lo : bool) (strict : bool) (l : num) (up : bool) (ustrict : bool) (u : num) (d : num) : regopt :=
  mkReg OT_Number lo strict l up ustrict u d [] [] 0.
Definition int_opt (lo : bool) (l : num) (d : Z) : regopt := mkReg OT_Integer lo false l false false nzero nzero [] [] d.
Definition reg1 (n : str) (o : regopt) : registry := fun x => if str_eqb x n then Some o else None.
Definition tol_opt := num_opt true true nzero false false nzero none.
Theorem C08_registered_case_insensitive_refuted :
  let r := Some (reg1 (lit "tol") tol_opt) in
  same_name (lit "tol") (lit "TOL") /\
  returned r empty (SetNumber (lit "tol") none true false) = true /\ returned r empty (SetNumber (lit "TOL") none true false) = false.
Proof. cbv zeta. split; [reflexivity|]. split; vm_compute; reflexivity. Qed.

(** ** C09 *)
(** Reading a registered option with a prefix: the user's text for prefix+name, else for name, else the default. *)
Theorem C09_prefix_precedence_string : forall rg s t p o, registered rg t o -> ty o = OT_String ->
  result_of (get_string (Some rg) s t p) =
  Some (match user_text s t p with Some v => (true, Some (map_string o v)) | None => (false, Some (default_string o)) end).
Proof. exact get_string_spec. Qed.
Theorem C09_prefix_precedence_number : forall rg s t p o, registered rg t o -> ty o = OT_Number ->
  result_of (get_number (Some rg) s t p) =
  match user_text s t p with
  | Some v => match text_number v with Some x => Some (true, Some x) | None => None end
  | None => Some (false, Some (default_number o)) end.
Proof. exact get_number_spec. Qed.
Theorem C09_prefix_precedence_integer : forall rg s t p o, registered rg t o -> ty o = OT_Integer ->
  result_of (get_integer (Some rg) s t p) =
  match user_text s t p with
  | Some v => match text_integer v with Some x => Some (true, Some x) | None => None end
  | None => Some (false, Some (default_integer o)) end.
Proof. exact get_integer_spec. Qed.
(** A string setting is returned in the spelling in which it was registered. *)
Theorem C09_string_canonical : forall o v, string_allowed o v -> ~ In (lit "*") (valid_strings o) ->
  In (map_string o v) (valid_strings o) /\ same_ci (map_string o v) v.
Proof. exact map_string_spec. Qed.
(** GetEnumValue gives the position of the first listed setting that equals the text up to case. *)
Theorem C09_enum_position : forall rg s t p o k, registered rg t o -> ty o = OT_String -> ~ In (lit "*") (valid_strings o) ->
  (exists f, result_of (get_enum (Some rg) s t p) = Some (f, Some k) /\ f = match user_text s t p with Some _ => true | None => false end) <->
  (let v := match user_text s t p with Some v => v | None => default_string o end in
   exists j e, k = Z.of_nat j /\ nth_error (valid_strings o) j = Some e /\ same_ci e v /\ forall i e', (i < j)%nat -> nth_error (valid_strings o) i = Some e' -> ~ same_ci e' v).
Proof. exact get_enum_spec. Qed.
(** GetBoolValue: yes/true/on and no/false/off, anything else throws. *)
Theorem C09_bool_value : forall rg s t p o, registered rg t o -> ty o = OT_String ->
  result_of (get_bool (Some rg) s t p) =
  let '(f, v) := match user_text s t p with Some v => (true, map_string o v) | None => (false, default_string o) end in
  match bool_text v with Some b => Some (f, b) | None => None end.
Proof. exact get_bool_spec. Qed.
(** Reading never changes what is stored. *)
Theorem C09_get_changes_nothing : forall r s t p n,
  stored (step r s (GetString t p)) n = stored s n /\ stored (step r s (GetEnum t p)) n = stored s n /\ stored (step r s (GetBool t p)) n = stored s n /\
  stored (step r s (GetNumber t p)) n = stored s n /\ stored (step r s (GetInteger t p)) n = stored s n.
Proof.
  exact (fun r s t p n => conj (get_string_stored r s t p n) (conj (get_enum_stored r s t p n) (conj (get_bool_stored r s t p n)
           (conj (get_number_stored r s t p n) (get_integer_stored r s t p n))))).
Qed.

(** ** C10 *)
Theorem C10_number_accepted_iff_in_range : forall rg s t v a d, nnan v = false -> (forall o, registered rg t o -> bounds_not_nan o) ->
  (fst (set_number (Some rg) s t v a d) = true <-> exists o, registered rg t o /\ ty o = OT_Number /\ in_range o (key v)) /\
  (fst (set_number (Some rg) s t v a d) = false -> snd (set_number (Some rg) s t v a d) = s).
Proof.
  intros rg s t v a d Hv Hb. destruct (set_checked_spec rg s t OT_Number (fun o => valid_number o v) (fmt_g v) a d) as (H1 & H2).
  split; [|exact H2]. unfold set_number. rewrite H1. split; intros (o & Q1 & Q2 & Q3); exists o; (split; [exact Q1|]); (split; [exact Q2|]);
    apply (valid_number_spec o v (Hb o Q1) Hv); exact Q3.
Qed.
Theorem C10_integer_accepted_iff_in_range : forall rg s t v a d, int32 v -> (forall o, registered rg t o -> bounds_not_nan o) ->
  (fst (set_integer (Some rg) s t v a d) = true <-> exists o, registered rg t o /\ ty o = OT_Integer /\ in_range_int o v) /\
  (fst (set_integer (Some rg) s t v a d) = false -> snd (set_integer (Some rg) s t v a d) = s).
Proof.
  intros rg s t v a d Hv Hb. destruct (set_checked_spec rg s t OT_Integer (fun o => valid_integer o v) (fmt_d v) a d) as (H1 & H2).
  split; [|exact H2]. unfold set_integer. rewrite H1. split; intros (o & Q1 & Q2 & Q3); exists o; (split; [exact Q1|]); (split; [exact Q2|]);
    apply (valid_integer_spec o v (Hb o Q1) Hv); exact Q3.
Qed.
Theorem C10_string_accepted_iff_listed : forall rg s t v a d,
  (fst (set_string (Some rg) s t v a d) = true <-> exists o, registered rg t o /\ ty o = OT_String /\ string_allowed o v) /\
  (fst (set_string (Some rg) s t v a d) = false -> snd (set_string (Some rg) s t v a d) = s).
Proof.
  intros rg s t v a d. destruct (set_checked_spec rg s t OT_String (fun o => valid_string o v) v a d) as (H1 & H2).
  split; [|exact H2]. unfold set_string. rewrite H1. split; intros (o & Q1 & Q2 & Q3); exists o; (split; [exact Q1|]); (split; [exact Q2|]);
    apply valid_string_spec; exact Q3.
Qed.
(** NaN passes every range check. *)
Theorem C10_nan_refuted : forall o, valid_number o NaN = true.
Proof.
  intros o. unfold valid_number. assert (A : nle NaN (lower o) = false) by (destruct (lower o); reflexivity).
  assert (B : nlt NaN (lower o) = false) by (destruct (lower o); reflexivity).
  assert (C : nge NaN (upper o) = false) by (unfold nge; destruct (upper o); reflexivity).
  assert (D : ngt NaN (upper o) = false) by (unfold ngt; destruct (upper o); reflexivity).
  rewrite A, B, C, D. rewrite !andb_false_r. reflexivity.
Qed.
(** The value read back can violate the registered strict bound: 0.9999999 < 1 is accepted and read back
    as 1 (e.g. for alpha_red_factor, a line search with this factor never shortens a step). *)
Definition factor_opt := num_opt true true nzero true true none (nrat 1 2).
Theorem C10_value_read_back_in_range_refuted :
  let r := Some (reg1 (lit "alpha_red_factor") factor_opt) in
  let t := lit "alpha_red_factor" in
  exists v x s', nlt v none = true /\ fst (set_number r empty t v true false) = true /\
    get_number r (snd (set_number r empty t v true false)) t [] = Ret (true, Some x, s') /\ neqb x none = true /\ valid_number factor_opt x = false.
Proof.
  cbv zeta. set (r := Some (reg1 (lit "alpha_red_factor") factor_opt)). set (t := lit "alpha_red_factor").
  exists (nrat 9999999 10000000).
  assert (Q : match get_number r (snd (set_number r empty t (nrat 9999999 10000000) true false)) t [] with
              | Ret (true, Some x, s') => neqb x none && negb (valid_number factor_opt x) | _ => false end = true) by (vm_compute; reflexivity).
  destruct (get_number r (snd (set_number r empty t (nrat 9999999 10000000) true false)) t []) as [[[[|] [x|]] s']|]; try discriminate.
  exists x, s'. apply andb_true_iff in Q. destruct Q as (Q1 & Q2). apply negb_true_iff in Q2.
  split; [vm_compute; reflexivity|]. split; [vm_compute; reflexivity|]. auto.
Qed.

(** ** C11 *)
(** Reading terminates on every input (the fuel of the model never runs out). *)
Theorem C11_reading_terminates : forall r s text allow, read_from_stream r s text allow <> None.
Proof. exact read_terminates. Qed.
(** A file made of tokens (bare or quoted), white space and comments sets exactly the named options in
    order; an odd number of tokens is reported as an error. *)
Theorem C11_file_round_trip : forall r s allow tokens text, file tokens text ->
  read_from_stream r s text allow = Some (set_pairs r s allow tokens).
Proof. exact (fun r s allow tokens text => read_file r s allow tokens text). Qed.
(** An empty quoted value is not read as an empty value. *)
Theorem C11_empty_quoted_value_refuted :
  match read_from_stream None empty (lit "a """" b c") true with Some (Ret (ok, _)) => ok | _ => true end = false.
Proof. vm_compute. reflexivity. Qed.
(** A file that ends inside a quoted name is accepted without complaint. *)
Theorem C11_unterminated_name_refuted :
  match read_from_stream None empty (lit "a b ""max_iter 10") true with
  | Some (Ret (ok, s)) => ok && match stored s (lit "a") with Some _ => true | None => false end | _ => false end = true.
Proof. vm_compute. reflexivity. Qed.

(** ** C12 *)
(** An integer option set through the API is read back unchanged, for every 32-bit integer. *)
Theorem C12_integer_round_trip : forall rg s t o v allow dp, registered rg t o -> ty o = OT_Integer -> bounds_not_nan o -> int32 v ->
  in_range_int o v -> (forall x, stored s t <> Some (x, false)) ->
  let s' := snd (set_integer (Some rg) s t v allow dp) in
  result_of (get_integer (Some rg) s' t []) = Some (true, Some v).
Proof.
  intros rg s t o v allow dp Hr Ht Hb Hv Hi Hc. cbv zeta. rewrite (get_integer_spec _ _ _ _ _ Hr Ht). rewrite user_text_nil.
  unfold set_integer. rewrite set_checked_stored. 
  destruct (set_checked_spec rg s t OT_Integer (fun o => valid_integer o v) (fmt_d v) allow dp) as (H1 & _).
  assert (Q : fst (set_checked (Some rg) s t OT_Integer (fun o => valid_integer o v) (fmt_d v) allow dp) = true).
  { apply H1. exists o. split; [exact Hr|]. split; [exact Ht|]. apply valid_integer_spec; assumption. }
  rewrite Q. unfold spec_write. destruct (same_name_dec t t) as [_|N]; [|destruct N; reflexivity].
  destruct (stored s t) as [[x [|]]|] eqn:E; [|destruct (Hc x); reflexivity|]; rewrite text_integer_fmt by exact Hv; reflexivity.
Qed.
(** In an option file an integer text beyond 32 bits is wrapped silently: 4294967301 becomes 5. *)
Definition max_iter_opt := int_opt true nzero 3000.
Theorem C12_file_integer_wraps_refuted :
  match read_from_stream (Some (reg1 (lit "max_iter") max_iter_opt)) empty (lit "max_iter 4294967301") true with
  | Some (Ret (true, s)) => match stored s (lit "max_iter") with Some (v, _) => str_eqb v (lit "5") | None => false end | _ => false end = true.
Proof. vm_compute. reflexivity. Qed.
(** A quoted blank text is taken as the integer 0, and text after a blank is ignored. *)
Theorem C12_blank_text_refuted :
  match read_from_stream (Some (reg1 (lit "max_iter") max_iter_opt)) empty (lit "max_iter "" """) true with
  | Some (Ret (true, s)) => match stored s (lit "max_iter") with Some (v, _) => str_eqb v (lit "0") | None => false end | _ => false end = true /\
  match read_from_stream (Some (reg1 (lit "max_iter") max_iter_opt)) empty (lit "max_iter ""7 or 8""") true with
  | Some (Ret (true, s)) => match stored s (lit "max_iter") with Some (v, _) => str_eqb v (lit "7") | None => false end | _ => false end = true.
Proof. split; vm_compute; reflexivity. Qed.

(** ** Non-vacuity *)
Example C08_ex : last_write (lit "Tol") (trace None empty [SetString (lit "tol") (lit "1") true false; SetString (lit "x") (lit "2") true false;
    SetString (lit "TOL") (lit "3") false false; SetString (lit "tol") (lit "4") true false; Unset (lit "tol")]) = Some (lit "3", false).
Proof. vm_compute. reflexivity. Qed.
Example C09_ex : registered (reg1 (lit "tol") tol_opt) (lit "resto.tol") tol_opt /\ ty tol_opt = OT_Number /\ bounds_not_nan tol_opt.
Proof.
  split; [|split; [reflexivity|split; reflexivity]]. exists (lit "tol"). split; [|reflexivity].
  split; [vm_compute; intuition discriminate|]. right. exists (lit "resto"). reflexivity.
Qed.
Example C09_ex_prefix : user_text (run None [SetString (lit "tol") (lit "1") true false; SetString (lit "resto.tol") (lit "2") true false]) (lit "tol") (lit "resto.") = Some (lit "2").
Proof. vm_compute. reflexivity. Qed.
Example C10_ex : in_range factor_opt (key (nrat 1 2)).
Proof.
  apply valid_number_spec; [split; reflexivity|reflexivity|vm_compute; reflexivity].
Qed.
Example C11_ex : file [lit "tol"; lit "1e-8"; lit "hsllib"; lit "my lib"] (lit "# comment
 tol 1e-8
hsllib ""my lib"" # end").
Proof.
  apply (file_tok (lit "# comment
 ") (lit "tol") (lit "tol") 32 _ (lit "1e-8
hsllib ""my lib"" # end")).
  - apply (blank_comment (lit " comment") (lit " ")); [vm_compute; intuition discriminate|reflexivity|]. apply blank_space; [reflexivity|constructor].
  - apply (bare 116 (lit "ol")); try reflexivity; try discriminate. repeat constructor.
  - reflexivity.
  - apply (file_tok [] (lit "1e-8") (lit "1e-8") 10 _ (lit "hsllib ""my lib"" # end")); [constructor| |reflexivity|].
    { apply (bare 49 (lit "e-8")); try reflexivity; try discriminate. repeat constructor. }
    apply (file_tok [] (lit "hsllib") (lit "hsllib") 32 _ (lit """my lib"" # end")); [constructor| |reflexivity|].
    { apply (bare 104 (lit "sllib")); try reflexivity; try discriminate. repeat constructor. }
    apply (file_tok [] (lit "my lib") (lit """my lib""") 32 _ (lit "# end")); [constructor| |reflexivity|].
    { apply (quoted (lit "my lib")); [discriminate|vm_compute; intuition discriminate]. }
    apply (file_end_comment [] (lit " end")); [constructor|vm_compute; intuition discriminate|reflexivity].
Qed.
Example C12_ex : int32 3000 /\ in_range_int max_iter_opt 3000.
Proof. split; [split; reflexivity || lia|]. apply valid_integer_spec; [split; reflexivity|split; reflexivity || lia|vm_compute; reflexivity]. Qed.

Print Assumptions C08_last_permitted_write_wins.
Print Assumptions C09_prefix_precedence_number.
Print Assumptions C10_number_accepted_iff_in_range.
Print Assumptions C11_file_round_trip.
Print Assumptions C12_integer_round_trip.
