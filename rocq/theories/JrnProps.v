(** C34: messages reach a journal exactly according to its print levels.
    C50: long texts are broken into lines without losing anything. *)
From Coq Require Import List Bool Arith ZArith String Ascii Lia.
From Verif Require Import JrnModel JrnSpec JrnProofs JrnWrap.
Import ListNotations.
Local Open Scope string_scope.

(** After any history of calls (latest first), a journal contains exactly the
    texts of the messages that went to it, in order, each once. *)
Theorem C34_contents : forall h j, Forall valid_op h -> j < created h ->
  exists jr, nth_error (heap (run (rev h) start)) j = Some jr /\ j_out jr = contents h j.
Proof.
  intros h j V L. destruct (inv_run h V) as (LN & D & _ & _).
  destruct (nth_error (heap (run (rev h) start)) j) as [jr|] eqn:N.
  - exists jr. split; auto. destruct (D _ _ N) as (_ & _ & _ & _ & C). auto.
  - apply nth_error_None in N. lia.
Qed.
(** The next message is appended to the journals it goes to, and to no other. *)
Theorem C34_next_message : forall h j level category text, Forall valid_op h -> category < J_LAST_CATEGORY -> j < created h ->
  (goes_to h level category j -> contents (Printf level category text :: h) j = contents h j ++ text) /\
  (~ goes_to h level category j -> contents (Printf level category text :: h) j = contents h j).
Proof.
  intros h j l c t V C L. cbn [contents]. split; intros G.
  - apply goes_to_spec in G. rewrite G. reflexivity.
  - destruct (goes_to_b h l c j) eqn:E; [apply goes_to_spec in E; tauto|apply app_nil_s].
Qed.
(** ProduceOutput tells whether some journal accepts such a message. *)
Theorem C34_produce_output : forall h level category, Forall valid_op h -> category < J_LAST_CATEGORY ->
  (produce_output level category (run (rev h) start) = true <->
   exists j l, registered h j = true /\ level_in_force h j category = Some l /\ (level <= l)%Z).
Proof.
  intros h lv c V C. destruct (inv_run h V) as (LN & D & _ & R). unfold produce_output. rewrite existsb_exists. split.
  - intros (j & I & E). destruct (nth_error _ j) as [jr|] eqn:N; [|discriminate].
    rewrite (accepted_level h j jr c lv (D _ _ N) C) in E. destruct (level_in_force h j c) as [l|] eqn:LF; [|discriminate].
    exists j, l. rewrite <- R. apply Z.leb_le in E. auto.
  - intros (j & l & RG & LF & LE). exists j. apply R in RG. split; auto.
    destruct (nth_error _ j) as [jr|] eqn:N.
    + rewrite (accepted_level h j jr c lv (D _ _ N) C), LF. apply Z.leb_le. auto.
    + apply nth_error_None in N. apply R, registered_lt in RG. lia.
Qed.
(** Setting one level of one journal changes nothing else. *)
Theorem C34_others_alone : forall h j c l level c' j', (j', c') <> (j, c) ->
  (goes_to (SetPrintLevel j c l :: h) level c' j' <-> goes_to h level c' j').
Proof.
  intros h j c l lv c' j' NE. unfold goes_to. cbn [registered has_stream level_in_force].
  destruct (Nat.eqb_spec j' j), (Nat.eqb_spec c' c); cbn [andb]; try tauto. subst. congruence.
Qed.
(** SetAllPrintLevels does not set the levels of the user's categories, against its
    documentation ("Set the print level for all category"). *)
Theorem C34_set_all_levels_refuted :
  ~ (forall h j l level c, Forall valid_op h -> registered h j = true -> has_stream h j = true -> c < J_LAST_CATEGORY ->
     (goes_to (SetAllPrintLevels j l :: h) level c j <-> (level <= l)%Z)).
Proof.
  intros H. pose proof (H [AddJournal 0; NewJournal "a" 5 true] 0 0%Z 5%Z J_USER_APPLICATION) as X.
  destruct X as [X _]; [repeat constructor|reflexivity|reflexivity|unfold J_USER_APPLICATION, J_LAST_CATEGORY; lia|].
  apply (Z.nle_gt 5 0); [lia|]. apply X. apply goes_to_spec. reflexivity.
Qed.

(** Registered journals have different names, and GetJournal finds by name. *)
Theorem C34_names_differ : forall h i j n, registered h i = true -> registered h j = true ->
  name_of h i = Some n -> name_of h j = Some n -> i = j.
Proof.
  assert (T : forall h i n, registered h i = true -> name_of h i = Some n -> name_taken h (registered h) n = true).
  { intros h i n R N. apply existsb_exists. exists i. split; [apply in_seq; apply registered_lt in R; lia|]. rewrite R, N, String.eqb_refl. reflexivity. }
  induction h as [|o h IH]; intros i j n Ri Rj Ni Nj; [discriminate|].
  destruct o; cbn [registered name_of] in *; try (eapply IH; eassumption); try discriminate.
  - destruct (Nat.eqb_spec i (created h)) as [->|]; [apply registered_lt in Ri; lia|].
    destruct (Nat.eqb_spec j (created h)) as [->|]; [apply registered_lt in Rj; lia|]. eapply IH; eassumption.
  - rewrite Ni in Ri. rewrite Nj in Rj. apply orb_true_iff in Ri, Rj. rewrite andb_true_iff, Nat.eqb_eq in Ri, Rj.
    destruct Ri as [Ri|[-> Ri]], Rj as [Rj|[-> Rj]]; auto; [eapply IH; eassumption| |].
    + rewrite (T _ _ _ Ri Ni) in Rj. discriminate.
    + rewrite (T _ _ _ Rj Nj) in Ri. discriminate.
  - apply orb_true_iff in Ri, Rj. rewrite !andb_true_iff, Nat.eqb_eq in Ri, Rj.
    destruct (Nat.eqb_spec i (created h)) as [Ei|Ei], (Nat.eqb_spec j (created h)) as [Ej|Ej]; try lia.
    + injection Ni as ->. destruct Rj as [Rj|[[? _] _]]; [|lia]. destruct Ri as [Ri|[_ Ri]]; [apply registered_lt in Ri; lia|].
      rewrite (T _ _ _ Rj Nj) in Ri. discriminate.
    + injection Nj as ->. destruct Ri as [Ri|[[? _] _]]; [|lia]. destruct Rj as [Rj|[_ Rj]]; [apply registered_lt in Rj; lia|].
      rewrite (T _ _ _ Ri Ni) in Rj. discriminate.
    + destruct Ri as [Ri|[[? _] _]]; [|lia]. destruct Rj as [Rj|[[? _] _]]; [|lia]. eapply IH; eassumption.
Qed.
Theorem C34_get_journal : forall h n j, Forall valid_op h ->
  (get_journal n (run (rev h) start) = Some j <-> registered h j = true /\ name_of h j = Some n).
Proof.
  intros h n j V. pose proof (inv_run h V) as IV. pose proof IV as (LN & D & _ & R).
  assert (A : forall k, get_journal n (run (rev h) start) = Some k -> registered h k = true /\ name_of h k = Some n).
  { intros k E. unfold get_journal in E. apply find_some in E as [I E]. destruct (nth_error _ k) as [jr|] eqn:N; [|discriminate].
    destruct (D _ _ N) as (NM & _). apply String.eqb_eq in E. apply R in I. rewrite NM, E. auto. }
  split; [apply A|]. intros [Rj Nj]. destruct (get_journal n (run (rev h) start)) as [k|] eqn:E.
  - destruct (A _ eq_refl) as [Rk Nk]. f_equal. eapply C34_names_differ; eauto.
  - exfalso. pose proof (get_journal_taken h _ n IV) as [_ X]. apply X; auto.
    apply existsb_exists. exists j. split; [apply in_seq; apply registered_lt in Rj; lia|]. rewrite Rj, Nj, String.eqb_refl. reflexivity.
Qed.
(** AddJournal says yes exactly if no registered journal has that name. *)
Theorem C34_add_journal : forall h j, Forall valid_op h -> j < created h ->
  (fst (add_journal j (run (rev h) start)) = true <->
   ~ exists i n, registered h i = true /\ name_of h i = Some n /\ name_of h j = Some n).
Proof.
  intros h j V L. pose proof (inv_run h V) as IV. pose proof IV as (LN & D & _ & R). unfold add_journal.
  destruct (nth_error _ j) as [jr|] eqn:N; [|apply nth_error_None in N; lia]. destruct (D _ _ N) as (NM & _).
  destruct (get_journal (j_name jr) (run (rev h) start)) as [k|] eqn:G; cbn [fst].
  - apply C34_get_journal in G as [Rk Nk]; auto. split; [discriminate|]. intros X. exfalso. apply X. eauto.
  - split; [|auto]. intros _ (i & n & Ri & Ni & Nj). rewrite NM in Nj. injection Nj as <-.
    assert (get_journal (j_name jr) (run (rev h) start) = Some i) by (apply C34_get_journal; auto). congruence.
Qed.

(** ** the application's journals *)
Lemma run_snoc h o : run (rev (o :: h)) start = step (run (rev h) start) o.
Proof. cbn [rev]. unfold run. rewrite fold_left_app. reflexivity. Qed.
Lemma acc_in_force h j jr c l : Forall valid_op h -> nth_error (heap (run (rev h) start)) j = Some jr -> c < J_LAST_CATEGORY ->
  is_accepted jr c l = match level_in_force h j c with Some x => (l <=? x)%Z | None => false end.
Proof. intros V N C. apply accepted_level; auto. apply (proj1 (proj2 (inv_run h V)) _ _ N). Qed.

Definition reset_ops (s : state) (l : Z) : list op :=
  match get_journal "console" s with Some j => [SetPrintLevel j J_DBG J_NONE; SetAllPrintLevels j l] | None => [] end.
Lemma reset_run h l : Forall valid_op h ->
  Forall valid_op (reset_ops (run (rev h) start) l ++ h)%list /\
  reset_console l (run (rev h) start) = run (rev (reset_ops (run (rev h) start) l ++ h)%list) start.
Proof.
  intros V. unfold reset_console, reset_ops. destruct (get_journal _ _) as [j|]; cbn [List.app]; auto. split.
  - repeat constructor; auto; cbn; unfold J_DBG, J_LAST_CATEGORY; lia.
  - rewrite !run_snoc. reflexivity.
Qed.
Lemma get_same h o n : Forall valid_op h -> valid_op o -> (forall j, registered (o :: h) j = registered h j) -> (forall j, name_of (o :: h) j = name_of h j) ->
  get_journal n (run (rev (o :: h)) start) = get_journal n (run (rev h) start).
Proof.
  intros V VO R N. destruct (get_journal n (run (rev h) start)) as [j|] eqn:E.
  - apply C34_get_journal; [constructor; auto|]. apply C34_get_journal in E; auto. rewrite R, N. auto.
  - destruct (get_journal n (run (rev (o :: h)) start)) as [j|] eqn:E'; auto. apply C34_get_journal in E'; [|constructor; auto].
    rewrite R, N in E'. apply C34_get_journal in E'; auto. congruence.
Qed.
Lemma name_get h n j : Forall valid_op h -> get_journal n (run (rev h) start) = Some j -> name_of h j = Some n /\ j < created h.
Proof. intros V G. apply C34_get_journal in G as [R N]; auto. split; auto. apply registered_lt; auto. Qed.

(** Initialize as a sequence of calls *)
Definition open_ops (s : state) (file : string) (l : Z) (ok : bool) : list op :=
  match get_journal ("OutputFile:" ++ file) s with
  | Some j => [SetPrintLevel j J_DBG J_NONE]
  | None => if opens file ok then [SetPrintLevel (List.length (heap s)) J_DBG J_NONE; AddFileJournal ("OutputFile:" ++ file) file l ok]
            else [AddFileJournal ("OutputFile:" ++ file) file l ok]
  end.
Lemma open_run h file l ok : Forall valid_op h ->
  let s := run (rev h) start in
  let r := open_output_file file l ok s in
  Forall valid_op (open_ops s file l ok ++ h)%list /\ snd r = run (rev (open_ops s file l ok ++ h)%list) start /\
  fst r = (match get_journal ("OutputFile:" ++ file) s with Some _ => true | None => opens file ok end).
Proof.
  intros V s r. unfold r, open_output_file, open_ops.
  destruct (get_journal ("OutputFile:" ++ file) s) as [j|] eqn:G.
  - cbn [fst snd List.app]. rewrite run_snoc. repeat split; auto. constructor; auto. cbn. unfold J_DBG, J_LAST_CATEGORY. lia.
  - destruct (opens file ok) eqn:OP.
    + assert (AF : add_file_journal ("OutputFile:" ++ file) file l ok s =
                  (Some (List.length (heap s)), snd (add_file_journal ("OutputFile:" ++ file) file l ok s))).
      { unfold add_file_journal. rewrite OP. unfold add_journal. cbn [heap regs]. rewrite nth_error_snoc, Nat.eqb_refl. cbn [j_name new_journal].
        assert (GS : get_journal ("OutputFile:" ++ file) {| heap := heap s ++ [new_journal ("OutputFile:" ++ file) l true]; regs := regs s |}%list = None).
        { rewrite <- G. unfold get_journal. cbn [heap regs]. assert (X : forall j, In j (regs s) -> j < List.length (heap s)).
          { intros j I. destruct (inv_run h V) as (L & _ & _ & R). apply R, registered_lt in I. fold s in L. lia. }
          revert X. generalize (regs s). induction l0 as [|x l0 IH]; intros X; cbn [find]; auto.
          rewrite nth_error_snoc. destruct (Nat.eqb_spec x (List.length (heap s))).
          - assert (x < List.length (heap s)) by (apply X; cbn; auto). lia.
          - rewrite IH by (intros; apply X; cbn; auto). reflexivity. }
        rewrite GS. reflexivity. }
      rewrite AF. cbn [fst snd List.app]. rewrite !run_snoc. repeat split; auto.
      repeat constructor; auto.
    + unfold add_file_journal at 1 2. rewrite OP. cbn [fst snd List.app]. rewrite run_snoc. repeat split; auto.
      * repeat constructor; auto.
      * cbn [step]. unfold add_file_journal. rewrite OP. reflexivity.
Qed.

(** Whatever happened before: after Initialize with print_level p (output not
    suppressed), the console shows exactly the messages up to level p; debug output
    only at level J_NONE or below; the user's categories are as before. *)
Theorem C34_print_level : forall h o ok console, Forall valid_op h ->
  let s := run (rev h) start in
  get_journal "console" s = Some console -> oo_suppress o = false ->
  exists jr before, nth_error (heap (snd (initialize o ok s))) console = Some jr /\ nth_error (heap s) console = Some before /\
    get_journal "console" (snd (initialize o ok s)) = Some console /\
    (forall c level, c < J_USER_APPLICATION -> c <> J_DBG -> (is_accepted jr c level = true <-> (level <= oo_level o)%Z)) /\
    (forall level, is_accepted jr J_DBG level = true <-> (level <= J_NONE)%Z) /\
    (forall c level, J_USER_APPLICATION <= c < J_LAST_CATEGORY -> is_accepted jr c level = is_accepted before c level).
Proof.
  intros h o ok k V s G NS. pose proof (name_get _ _ _ V G) as [NK LK].
  assert (CD : forall h', Forall valid_op h' -> name_of h' k = Some "console" -> registered h' k = true ->
            (forall c, c < J_LAST_CATEGORY -> level_in_force h' k c =
               if (c =? J_DBG)%nat then Some J_NONE else if (c <? J_USER_APPLICATION)%nat then Some (oo_level o) else level_in_force h k c) ->
            exists jr before, nth_error (heap (run (rev h') start)) k = Some jr /\ nth_error (heap s) k = Some before /\
              get_journal "console" (run (rev h') start) = Some k /\
    (forall c level, c < J_USER_APPLICATION -> c <> J_DBG -> (is_accepted jr c level = true <-> (level <= oo_level o)%Z)) /\
    (forall level, is_accepted jr J_DBG level = true <-> (level <= J_NONE)%Z) /\
    (forall c level, J_USER_APPLICATION <= c < J_LAST_CATEGORY -> is_accepted jr c level = is_accepted before c level)).
  { intros h' V' N' R' LV. destruct (nth_error (heap (run (rev h') start)) k) as [jr|] eqn:E.
    2:{ apply nth_error_None in E. destruct (inv_run h' V') as (L' & _). apply name_of_lt in N'. lia. }
    destruct (nth_error (heap s) k) as [before|] eqn:EB.
    2:{ apply nth_error_None in EB. destruct (inv_run h V) as (L' & _). fold s in L'. lia. }
    exists jr, before. split; auto. split; auto. split; [apply C34_get_journal; auto|].
    assert (U : J_USER_APPLICATION < J_LAST_CATEGORY) by (unfold J_USER_APPLICATION, J_LAST_CATEGORY; lia).
    split; [|split].
    - intros c lv C NC. rewrite (acc_in_force h' k jr c lv V' E) by lia. rewrite LV by lia.
      destruct (Nat.eqb_spec c J_DBG); [lia|]. destruct (Nat.ltb_spec c J_USER_APPLICATION); [|lia]. apply Z.leb_le.
    - intros lv. assert (Z0 : J_DBG < J_LAST_CATEGORY) by (unfold J_DBG, J_LAST_CATEGORY; lia).
      rewrite (acc_in_force h' k jr J_DBG lv V' E Z0), (LV _ Z0). rewrite Nat.eqb_refl. apply Z.leb_le.
    - intros c lv C. rewrite (acc_in_force h' k jr c lv V' E) by lia. rewrite (acc_in_force h k before c lv V EB) by lia. rewrite LV by lia.
      destruct (Nat.eqb_spec c J_DBG); [unfold J_DBG, J_USER_APPLICATION in *; lia|]. destruct (Nat.ltb_spec c J_USER_APPLICATION); [lia|]. reflexivity. }
  pose proof (reset_run h (oo_level o) V) as [V1 E1]. fold s in V1, E1.
  set (h1 := (reset_ops s (oo_level o) ++ h)%list) in *.
  assert (H1 : h1 = SetPrintLevel k J_DBG J_NONE :: SetAllPrintLevels k (oo_level o) :: h) by (unfold h1, reset_ops; rewrite G; reflexivity).
  assert (RK : registered h k = true) by (apply C34_get_journal in G; tauto).
  assert (N1 : name_of h1 k = Some "console") by (rewrite H1; exact NK).
  assert (R1 : registered h1 k = true) by (rewrite H1; exact RK).
  assert (LV1 : forall c, c < J_LAST_CATEGORY -> level_in_force h1 k c =
               if (c =? J_DBG)%nat then Some J_NONE else if (c <? J_USER_APPLICATION)%nat then Some (oo_level o) else level_in_force h k c).
  { intros c C. rewrite H1. cbn [level_in_force created]. rewrite Nat.eqb_refl. destruct (Nat.ltb_spec k (created h)); [|lia].
    cbn [andb]. rewrite !andb_true_r. reflexivity. }
  unfold initialize. rewrite NS, E1. destruct (oo_file o =? "") eqn:F; cbn [negb snd].
  - apply CD; auto.
  - set (fl := match oo_file_level o with Some l => l | None => oo_level o end).
    destruct (open_run h1 (oo_file o) fl ok V1) as (V2 & E2 & E3). cbn zeta in *.
    destruct (open_output_file (oo_file o) fl ok (run (rev h1) start)) as [op s2] eqn:EO. cbn [fst snd] in E2, E3.
    set (h2 := (open_ops (run (rev h1) start) (oo_file o) fl ok ++ h1)%list) in *.
    assert (D2 : name_of h2 k = Some "console" /\ registered h2 k = true /\ created h <= created h2 /\
                 forall c, level_in_force h2 k c = level_in_force h1 k c).
    { assert (LC : created h1 = created h) by (rewrite H1; reflexivity). unfold h2, open_ops.
      destruct (get_journal ("OutputFile:" ++ oo_file o) (run (rev h1) start)) as [j|] eqn:GO.
      - cbn [List.app name_of registered level_in_force created]. split; auto. split; auto. split; [lia|].
        intros c. apply name_get in GO as [NO _]; auto. destruct (Nat.eqb_spec k j) as [->|]; [|reflexivity]. rewrite N1 in NO. discriminate NO.
      - destruct (opens (oo_file o) ok); cbn [List.app name_of registered level_in_force created].
        + destruct (inv_run h1 V1) as (L1 & _). rewrite L1. rewrite LC. destruct (Nat.eqb_spec k (created h)); [lia|]. rewrite R1. cbn. repeat split; auto; lia.
        + rewrite LC. destruct (Nat.eqb_spec k (created h)); [lia|]. rewrite R1. cbn. repeat split; auto; lia. }
    destruct D2 as (N2 & R2 & LC2 & LV2).
    destruct op; cbn [snd]; rewrite E2.
    + apply CD; auto. intros c C. rewrite LV2; auto.
    + change (vprintf J_ERROR J_INITIALIZATION ?t ?s) with (step s (Printf J_ERROR J_INITIALIZATION t)). rewrite <- run_snoc.
      apply CD; auto.
      * constructor; auto. cbn. unfold J_INITIALIZATION, J_LAST_CATEGORY. lia.
      * intros c C. cbn [level_in_force]. rewrite LV2; auto.
Qed.
(** A newly opened output file gets the messages up to file_print_level (print_level if
    that is not set), in all categories but debug output. *)
Theorem C34_output_file : forall h o, Forall valid_op h ->
  let s := run (rev h) start in
  oo_suppress o = false -> oo_file o <> "" -> get_journal ("OutputFile:" ++ oo_file o) s = None ->
  exists j jr, get_journal ("OutputFile:" ++ oo_file o) (snd (initialize o true s)) = Some j /\
    nth_error (heap (snd (initialize o true s))) j = Some jr /\ j_open jr = true /\ j_out jr = "" /\ fst (initialize o true s) = true /\
    (forall c level, c < J_LAST_CATEGORY -> c <> J_DBG ->
       (is_accepted jr c level = true <-> (level <= match oo_file_level o with Some l => l | None => oo_level o end)%Z)) /\
    (forall level, is_accepted jr J_DBG level = true <-> (level <= J_NONE)%Z).
Proof.
  intros h o V s NS NF NG. pose proof (reset_run h (oo_level o) V) as [V1 E1]. fold s in V1, E1.
  set (h1 := (reset_ops s (oo_level o) ++ h)%list) in *.
  assert (S1 : created h1 = created h /\ (forall j, registered h1 j = registered h j) /\ forall j, name_of h1 j = name_of h j).
  { unfold h1, reset_ops. destruct (get_journal "console" s); cbn; auto. }
  destruct S1 as (C1 & R1 & N1).
  assert (G1 : get_journal ("OutputFile:" ++ oo_file o) (run (rev h1) start) = None).
  { destruct (get_journal _ (run (rev h1) start)) as [j|] eqn:E; auto. apply C34_get_journal in E; auto. rewrite R1, N1 in E.
    apply C34_get_journal in E; auto. fold s in E. congruence. }
  set (fl := match oo_file_level o with Some l => l | None => oo_level o end).
  assert (OP : opens (oo_file o) true = true) by (rewrite opens_spec; apply orb_true_r).
  assert (I0 : initialize o true s = (true, run (rev (SetPrintLevel (created h1) J_DBG J_NONE :: AddFileJournal ("OutputFile:" ++ oo_file o) (oo_file o) fl true :: h1)) start)).
  { unfold initialize. rewrite NS, E1. destruct (String.eqb_spec (oo_file o) ""); [congruence|]. cbn [negb]. fold fl.
    destruct (open_run h1 (oo_file o) fl true V1) as (V2 & E2 & E3). cbn zeta in *. rewrite G1, OP in E3.
    destruct (open_output_file (oo_file o) fl true (run (rev h1) start)) as [op s2]. cbn [fst snd] in *. subst op s2.
    unfold open_ops. rewrite G1, OP. destruct (inv_run h1 V1) as (L1 & _). rewrite L1. reflexivity. }
  rewrite I0. cbn [fst snd].
  set (h3 := AddFileJournal ("OutputFile:" ++ oo_file o) (oo_file o) fl true :: h1).
  set (h2 := SetPrintLevel (created h1) J_DBG J_NONE :: h3).
  assert (V3 : Forall valid_op h3) by (constructor; cbn; auto).
  assert (V2 : Forall valid_op h2) by (constructor; auto; cbn; unfold J_DBG, J_LAST_CATEGORY; lia).
  assert (TK : name_taken h1 (registered h1) ("OutputFile:" ++ oo_file o) = false).
  { destruct (name_taken h1 (registered h1) ("OutputFile:" ++ oo_file o)) eqn:E; auto. apply (get_journal_taken h1 (run (rev h1) start) _ (inv_run h1 V1)) in E. congruence. }
  assert (RG : registered h2 (created h1) = true).
  { cbn [h2 h3 registered]. rewrite Nat.eqb_refl, TK, !orb_true_r. reflexivity. }
  assert (NM : name_of h2 (created h1) = Some ("OutputFile:" ++ oo_file o)) by (cbn [h2 h3 name_of]; rewrite Nat.eqb_refl; reflexivity).
  destruct (nth_error (heap (run (rev h2) start)) (created h1)) as [jr|] eqn:E.
  2:{ apply nth_error_None in E. destruct (inv_run h2 V2) as (L & _). cbn [created h2 h3] in L. lia. }
  destruct (inv_run h2 V2) as (_ & D & _). pose proof (D _ _ E) as (_ & D2 & _ & _ & D5).
  exists (created h1), jr. split; [apply C34_get_journal; auto|]. split; auto.
  assert (LT : (created h1 <? S (created h1))%nat = true) by (apply Nat.ltb_lt; lia).
  split; [rewrite <- D2; cbn [h2 h3 has_stream]; rewrite Nat.eqb_refl; apply orb_true_r|].
  split; [rewrite <- D5; cbn [h2 h3 contents]; apply contents_none; lia|]. split; auto. split.
  - intros c lv C NC. rewrite (acc_in_force h2 _ jr c lv V2 E) by auto. cbn [h2 h3 level_in_force created]. rewrite Nat.eqb_refl, LT.
    destruct (Nat.eqb_spec c J_DBG); [lia|]. cbn [andb]. apply Z.leb_le.
  - intros lv. rewrite (acc_in_force h2 _ jr J_DBG lv V2 E) by (unfold J_DBG, J_LAST_CATEGORY; lia).
    cbn [h2 h3 level_in_force created]. rewrite !Nat.eqb_refl, LT. cbn [andb]. apply Z.leb_le.
Qed.
(** If the file is open already (an earlier Initialize), a new file_print_level has no
    effect. *)
Theorem C34_output_file_level_refuted :
  ~ (forall h o, Forall valid_op h -> let s := run (rev h) start in
     oo_suppress o = false -> oo_file o <> "" ->
     forall j jr c level, get_journal ("OutputFile:" ++ oo_file o) (snd (initialize o true s)) = Some j ->
       nth_error (heap (snd (initialize o true s))) j = Some jr -> c < J_LAST_CATEGORY -> c <> J_DBG ->
       (is_accepted jr c level = true <-> (level <= match oo_file_level o with Some l => l | None => oo_level o end)%Z)).
Proof.
  intros H. specialize (H [AddFileJournal "OutputFile:o" "o" 5 true] (OO false 0 "o" None)). cbv zeta in H.
  destruct (H (ltac:(repeat constructor)) eq_refl (ltac:(discriminate)) 0 (Jrn "OutputFile:o" (0%Z :: repeat 5%Z 31) true "") J_MAIN 5%Z) as [X _];
    try reflexivity; [unfold J_MAIN, J_LAST_CATEGORY; lia|unfold J_MAIN, J_DBG; lia|].
  specialize (X eq_refl). cbn in X. lia.
Qed.
(** Initialize fails exactly if a new output file cannot be opened. *)
Theorem C34_initialize_fails : forall h o ok, Forall valid_op h ->
  let s := run (rev h) start in
  (fst (initialize o ok s) = false <->
   oo_suppress o = false /\ oo_file o <> "" /\ get_journal ("OutputFile:" ++ oo_file o) s = None /\
   oo_file o <> "stdout" /\ oo_file o <> "stderr" /\ ok = false).
Proof.
  intros h o ok V s. unfold initialize. destruct (oo_suppress o); cbn [fst]; [intuition discriminate|].
  pose proof (reset_run h (oo_level o) V) as [V1 E1]. fold s in V1, E1. rewrite E1.
  set (h1 := (reset_ops s (oo_level o) ++ h)%list) in *.
  assert (S1 : (forall j, registered h1 j = registered h j) /\ forall j, name_of h1 j = name_of h j).
  { unfold h1, reset_ops. destruct (get_journal "console" s); cbn; auto. }
  destruct S1 as (R1 & N1).
  assert (G1 : get_journal ("OutputFile:" ++ oo_file o) (run (rev h1) start) = get_journal ("OutputFile:" ++ oo_file o) s).
  { destruct (get_journal _ (run (rev h1) start)) as [j|] eqn:E.
    - apply C34_get_journal in E; auto. rewrite R1, N1 in E. apply C34_get_journal in E; auto.
    - destruct (get_journal _ s) as [j|] eqn:E'; auto. apply C34_get_journal in E'; auto. rewrite <- R1, <- N1 in E'.
      apply C34_get_journal in E'; auto. congruence. }
  destruct (String.eqb_spec (oo_file o) "") as [F|F]; cbn [negb fst]; [intuition discriminate|].
  set (fl := match oo_file_level o with Some l => l | None => oo_level o end).
  destruct (open_run h1 (oo_file o) fl ok V1) as (V2 & E2 & E3). cbn zeta in *. rewrite G1 in E3.
  destruct (open_output_file (oo_file o) fl ok (run (rev h1) start)) as [op s2]. cbn [fst snd] in *. subst op.
  destruct (get_journal ("OutputFile:" ++ oo_file o) s) as [j|] eqn:G; cbn [fst]; [intuition discriminate|].
  rewrite opens_spec. destruct (String.eqb_spec (oo_file o) "stdout"), (String.eqb_spec (oo_file o) "stderr"), ok; cbn [orb fst];
    intuition (try discriminate; try contradiction; auto).
Qed.
(** With suppress_all_output nothing is written any more by anybody, unless a new
    journal is added. *)
Definition adds_no_journal (o : op) : Prop := match o with AddJournal _ | AddFileJournal _ _ _ _ => False | _ => True end.
Theorem C34_suppress_all_output : forall s o ok later j jr, oo_suppress o = true -> Forall adds_no_journal later ->
  nth_error (heap s) j = Some jr ->
  exists jr', nth_error (heap (run later (snd (initialize o ok s)))) j = Some jr' /\ j_out jr' = j_out jr.
Proof.
  intros s o ok later j jr S F N. unfold initialize. rewrite S. cbn [snd].
  assert (X : forall later s, Forall adds_no_journal later -> regs s = [] -> nth_error (heap s) j = Some jr ->
     forall out, out = j_out jr -> exists jr', nth_error (heap (run later s)) j = Some jr' /\ j_out jr' = out).
  { clear. intros later. induction later as [|o later IH] in jr |- *; intros s F R N out E.
    - exists jr. subst. auto.
    - inversion F; subst. unfold run. cbn [fold_left]. change (fold_left step later ?x) with (run later x).
      assert (ST : regs (step s o) = [] /\ exists jr1, nth_error (heap (step s o)) j = Some jr1 /\ j_out jr1 = j_out jr).
      { destruct o; cbn [adds_no_journal] in *; try contradiction; cbn [step].
        - split; auto. exists jr. split; auto. cbn [heap]. rewrite nth_error_app1; auto. apply nth_error_Some. congruence.
        - rewrite upd_regs. split; auto. rewrite upd_heap. destruct (Nat.eqb_spec j id) as [->|]; [rewrite N; cbn; eauto|eauto].
        - rewrite upd_regs. split; auto. rewrite upd_heap. destruct (Nat.eqb_spec j id) as [->|]; [rewrite N; cbn [option_map]|eauto].
          eexists. split; [reflexivity|]. apply set_all_levels_spec.
        - split; auto. eauto.
        - unfold vprintf. rewrite R. cbn. eauto.
        - unfold vprintf_indented. rewrite R. cbn. eauto. }
      destruct ST as (R' & jr1 & N' & O'). destruct (IH jr1 (step s o) H2 R' N' (j_out jr1) eq_refl) as (jr' & A & B).
      exists jr'. split; auto. congruence. }
  eapply X; eauto.
Qed.

Example C34_ex : contents [Printf 5 2 "b"; SetPrintLevel 0 2 4; PrintfIndented 5 2 1 "a"; AddFileJournal "j" "stdout" 5 false] 0 = "  a"
  /\ get_journal "console" (app_start true) = Some 0 /\ goes_to_b [AddFileJournal "j" "stdout" 5 false] 5 2 0 = true.
Proof. vm_compute. auto. Qed.

(** ** C50: breaking a text into lines *)
(** The lines printed are the text broken at spaces (which disappear) or inside words
    longer than a line (with a hyphen), no line longer than asked for, all but the first
    indented; it ends, and stays inside its buffer of 1024 characters. *)
Theorem C50_text_over_lines : forall indent max text buffer, 2 <= max -> indent + max < 1024 -> List.length buffer = 1024 ->
  ~ In NUL text ->
  exists lines, wrapped max text lines /\
    forall fuel, List.length text <= fuel -> print_over_lines fuel indent max text buffer = Done (indented indent lines).
Proof.
  intros ind max t buf M SZ LB NN. destruct (over_lines_ok ind max t 1024 NN M SZ (List.length t) buf (le_n _) LB) as (l & W & E).
  exists l. split; auto. intros fuel F. destruct (over_lines_ok ind max t 1024 NN M SZ fuel buf F LB) as (l' & W' & E').
  rewrite E'. f_equal.
  (* more rounds do not change the result *)
  assert (MONO : forall f f' a b c d bf out r, f <= f' -> over_lines f ind max t a b c d bf out = Done r -> over_lines f' ind max t a b c d bf out = Done r).
  { clear. induction f as [|f IH]; intros f' a b c d bf out r L E; destruct f' as [|f']; cbn [over_lines] in *; try lia; auto.
    - destruct (a <? List.length t)%nat; auto. discriminate.
    - destruct (a <? List.length t)%nat; auto. destruct (round _ _ _ _ _ _ _ _) as [[o [[[[[? ?] ?] ?] ?]|]]|]; auto. apply IH; auto; lia. }
  unfold print_over_lines in *. apply (MONO _ fuel) in E; auto. congruence.
Qed.
(** no line is longer than asked for *)
Theorem C50_line_length : forall max text lines l, 1 <= max -> wrapped max text lines -> In l lines -> List.length (fst l) <= max.
Proof.
  intros max t ls l M W. induction W; cbn [In]; intros I; try tauto.
  - destruct I as [<-|[]]. auto.
  - destruct I as [<-|I]; [cbn; lia|auto].
  - destruct I as [<-|I]; [cbn; lia|auto].
  - destruct I as [<-|I]; [cbn; rewrite app_length; cbn; lia|auto].
Qed.
(** the text can be read back: every line ends where a space was, or with a hyphen that
    was put in *)
Fixpoint reads_back (ends : list bool) (lines : list (list ascii * bool)) (text : list ascii) : Prop :=
  match lines, ends with
  | [], _ => text = []
  | (l, false) :: ls, _ => ls = [] /\ text = l
  | (l, true) :: ls, true :: ends => exists rest, (text = l ++ " "%char :: rest)%list /\ reads_back ends ls rest
  | (l, true) :: ls, false :: ends => exists w rest, (l = w ++ ["-"%char])%list /\ (text = w ++ rest)%list /\ reads_back ends ls rest
  | _, [] => False
  end.
Theorem C50_nothing_lost : forall max text lines, wrapped max text lines -> exists ends, reads_back ends lines text.
Proof.
  intros max t ls W. induction W.
  - exists []. reflexivity.
  - exists []. cbn. auto.
  - destruct IHW as (ends & R). exists (true :: ends). cbn. eauto.
  - destruct IHW as (ends & R). exists (true :: ends). cbn. eauto.
  - destruct IHW as (ends & R). exists (false :: ends). cbn. exists w, (c1 :: c2 :: rest)%list. auto.
Qed.
(** With lines of one character the method never ends on a word of two letters. *)
Theorem C50_one_character_lines_refuted :
  ~ (forall indent max text buffer, 1 <= max -> indent + max < 1024 -> List.length buffer = 1024 -> ~ In NUL text ->
     exists fuel lines, print_over_lines fuel indent max text buffer = Done lines).
Proof.
  intros H. destruct (H 0 1 ["a"; "b"]%char (repeat NUL 1024) (le_n 1)) as (fuel & lines & E); [lia|apply repeat_length| |].
  - intros [X|[X|[]]]; discriminate X.
  - assert (R : forall buf fl, 2 <= List.length buf -> exists o buf', round 0 1 ["a"; "b"]%char 0 0 0 fl buf = Some (o, Some (0, 0, 0, false, buf')) /\ 2 <= List.length buf').
    { intros buf fl L. destruct buf as [|b1 [|b2 buf]]; cbn in L; try lia. destruct fl; eexists; eexists; (split; [reflexivity|cbn; lia]). }
    assert (X : forall fuel buf fl out, 2 <= List.length buf -> over_lines fuel 0 1 ["a"; "b"]%char 0 0 0 fl buf out = Running).
    { induction fuel0 as [|f IH]; intros buf fl out L; [reflexivity|]. cbn [over_lines]. change (0 <? List.length ["a"; "b"]%char)%nat with true. cbv iota.
      destruct (R buf fl L) as (o & buf' & E1 & L'). rewrite E1. apply IH. auto. }
    unfold print_over_lines in E. rewrite X in E; [discriminate|]. rewrite repeat_length. lia.
Qed.
Example C50_ex : print_over_lines 20 2 6 (list_ascii_of_string "ab cdef ghijklmnop") (repeat " "%char 1024) =
  Done [(list_ascii_of_string "ab", true); (list_ascii_of_string "  cdef", true); (list_ascii_of_string "  ghijk-", true); (list_ascii_of_string "  lmnop", false)].
Proof. vm_compute. reflexivity. Qed.

Print Assumptions C34_contents.
Print Assumptions C34_print_level.
Print Assumptions C50_text_over_lines.
