From Coq Require Import List Bool Arith ZArith String Ascii Lia.
From Verif Require Import JrnModel JrnSpec.
Import ListNotations.
Local Open Scope string_scope.

Lemma set_nth_len {A} i (a : A) l : List.length (set_nth i a l) = List.length l.
Proof. revert i; induction l as [|b l IH]; intros [|i]; cbn; auto. Qed.
Lemma set_nth_nth {A} i (a : A) l k :
  nth_error (set_nth i a l) k = if (k =? i)%nat then (match nth_error l i with Some _ => Some a | None => None end) else nth_error l k.
Proof.
  revert i k; induction l as [|b l IH]; intros [|i] [|k]; cbn; auto.
  destruct (k =? i)%nat; auto.
Qed.
Lemma app_nil_s s : s ++ "" = s.
Proof. induction s; cbn; congruence. Qed.
Lemma app_assoc_s a b c : (a ++ b) ++ c = a ++ b ++ c.
Proof. induction a; cbn; congruence. Qed.

Lemma upd_heap s id f k : nth_error (heap (upd s id f)) k =
  if (k =? id)%nat then option_map f (nth_error (heap s) id) else nth_error (heap s) k.
Proof.
  unfold upd. destruct (nth_error (heap s) id) eqn:E; cbn.
  - rewrite set_nth_nth, E. destruct (k =? id)%nat; auto.
  - destruct (Nat.eqb_spec k id); subst; auto.
Qed.
Lemma upd_len s id f : List.length (heap (upd s id f)) = List.length (heap s).
Proof. unfold upd. destruct (nth_error _ _); cbn; auto. apply set_nth_len. Qed.
Lemma upd_regs s id f : regs (upd s id f) = regs s.
Proof. unfold upd. destruct (nth_error _ _); auto. Qed.

(** the journal object described by a history *)
Definition describes (h : list op) (j : nat) (jr : journal) : Prop :=
  name_of h j = Some (j_name jr) /\ has_stream h j = j_open jr /\ List.length (j_levels jr) = J_LAST_CATEGORY /\
  (forall c, c < J_LAST_CATEGORY -> nth_error (j_levels jr) c = level_in_force h j c) /\ contents h j = j_out jr.
Definition Inv (h : list op) (s : state) : Prop :=
  List.length (heap s) = created h /\
  (forall j jr, nth_error (heap s) j = Some jr -> describes h j jr) /\
  NoDup (regs s) /\ (forall j, In j (regs s) <-> registered h j = true).

Lemma name_of_none h j : created h <= j -> name_of h j = None.
Proof.
  induction h as [|o h IH]; auto. destruct o; cbn; auto; intros L; destruct (Nat.eqb_spec j (created h)); try lia; apply IH; lia.
Qed.
Lemma name_of_lt h j n : name_of h j = Some n -> j < created h.
Proof. intros E. destruct (Nat.lt_ge_cases j (created h)); auto. rewrite name_of_none in E by auto. discriminate. Qed.
Lemma registered_lt h j : registered h j = true -> j < created h.
Proof.
  induction h as [|o h IH]; cbn; try discriminate. destruct o; cbn; try discriminate; intros E; try (specialize (IH E); lia).
  - apply orb_true_iff in E as [E|E]; auto. apply andb_true_iff in E as [E1 E2].
    destruct (name_of h j) eqn:N; try discriminate. eapply name_of_lt; eauto.
  - apply orb_true_iff in E as [E|E]; [specialize (IH E); lia|]. apply andb_true_iff in E as [E1 E2]. apply andb_true_iff in E1 as [E1 _].
    apply Nat.eqb_eq in E1. lia.
Qed.
Lemma stream_none h j : created h <= j -> has_stream h j = false.
Proof.
  induction h as [|o h IH]; auto. destruct o; cbn; auto; intros L; destruct (Nat.eqb_spec j (created h)); try lia; apply IH; lia.
Qed.
Lemma goes_to_spec h l c j : goes_to_b h l c j = true <-> goes_to h l c j.
Proof.
  unfold goes_to_b, goes_to. rewrite !andb_true_iff. destruct (level_in_force h j c) as [x|]; split.
  - intros [[A B] C]. rewrite Z.leb_le in C. eauto.
  - intros (A & B & y & E & C). injection E as ->. rewrite Z.leb_le. auto.
  - intros [_ C]; discriminate.
  - intros (_ & _ & y & E & _); discriminate.
Qed.

(** GetJournal finds a journal exactly if the name is taken *)
Lemma get_journal_taken h s n : Inv h s -> (get_journal n s <> None <-> name_taken h (registered h) n = true).
Proof.
  intros (L & D & ND & R). unfold get_journal, name_taken. split.
  - intros E. destruct (find _ _) as [j|] eqn:F; [|congruence]. apply find_some in F as [I F].
    apply existsb_exists. exists j. apply R in I. split; [apply in_seq; apply registered_lt in I; lia|].
    rewrite I. cbn. destruct (nth_error (heap s) j) as [jr|] eqn:N; [|discriminate].
    destruct (D _ _ N) as (NM & _). rewrite NM. auto.
  - intros E. apply existsb_exists in E as (j & I & E). apply andb_true_iff in E as [E1 E2]. apply R in E1.
    intros F. pose proof (find_none _ _ F _ E1) as X. cbn in X.
    destruct (nth_error (heap s) j) as [jr|] eqn:N.
    + destruct (D _ _ N) as (NM & _). rewrite NM in E2. congruence.
    + apply nth_error_None in N. apply R, registered_lt in E1. lia.
Qed.

Lemma write_fields t j : j_name (write t j) = j_name j /\ j_levels (write t j) = j_levels j /\ j_open (write t j) = j_open j /\
  j_out (write t j) = j_out j ++ (if j_open j then t else "").
Proof. unfold write. destruct (j_open j) eqn:E; cbn; auto. rewrite app_nil_s. auto. Qed.

(** what a loop over the registered journals does to each of them *)
Section Loop.
Variable f : journal -> journal.
Variable acc : journal -> bool.
Let body := fun s id => match nth_error (heap s) id with
    | Some j => if acc j then upd s id f else s | None => s end.
Lemma loop_spec : forall l s, NoDup l ->
  let s' := fold_left body l s in
  regs s' = regs s /\ List.length (heap s') = List.length (heap s) /\
  forall k, nth_error (heap s') k =
    option_map (fun j => if existsb (Nat.eqb k) l && acc j then f j else j) (nth_error (heap s) k).
Proof.
  induction l as [|id l IH]; intros s ND; cbn [fold_left].
  - cbn. split; auto. split; auto. intros k. destruct (nth_error (heap s) k); reflexivity.
  - inversion ND; subst. destruct (IH (body s id) H2) as (A & B & C). cbn zeta in *.
    assert (RB : regs (body s id) = regs s).
    { unfold body. destruct (nth_error _ _); auto. destruct (acc j); auto. apply upd_regs. }
    assert (LB : List.length (heap (body s id)) = List.length (heap s)).
    { unfold body. destruct (nth_error _ _); auto. destruct (acc j); auto. apply upd_len. }
    split; [congruence|]. split; [congruence|]. intros k. rewrite C. cbn [existsb].
    destruct (Nat.eqb_spec k id) as [->|NE]; cbn [orb].
    + assert (existsb (Nat.eqb id) l = false) as ->.
      { apply not_true_is_false. intros E. apply existsb_exists in E as (x & I & E). apply Nat.eqb_eq in E. subst; auto. }
      cbn [andb]. unfold body. destruct (nth_error (heap s) id) as [j|] eqn:N; [|rewrite N; reflexivity].
      destruct (acc j) eqn:AC; cbn [option_map].
      * rewrite upd_heap, Nat.eqb_refl, N. cbn. rewrite AC. reflexivity.
      * rewrite N. cbn. rewrite AC. reflexivity.
    + assert (nth_error (heap (body s id)) k = nth_error (heap s) k) as ->; auto.
      unfold body. destruct (nth_error (heap s) id) as [j|] eqn:N; auto. destruct (acc j); auto.
      rewrite upd_heap. destruct (Nat.eqb_spec k id); congruence.
Qed.
End Loop.

Definition indent_write (n : nat) (t : string) (j : journal) : journal :=
  write t (Nat.iter n (write "  ") j).
Lemma iter_write n j : j_name (Nat.iter n (write "  ") j) = j_name j /\ j_levels (Nat.iter n (write "  ") j) = j_levels j /\
  j_open (Nat.iter n (write "  ") j) = j_open j /\ j_out (Nat.iter n (write "  ") j) = j_out j ++ (if j_open j then spaces2 n else "").
Proof.
  induction n.
  - cbn. destruct (j_open j); rewrite app_nil_s; auto.
  - change (Nat.iter (S n) (write "  ") j) with (write "  " (Nat.iter n (write "  ") j)). destruct IHn as (A & B & C & D). destruct (write_fields "  " (Nat.iter n (write "  ") j)) as (A' & B' & C' & D').
    rewrite A', B', C', D', A, B, C, D. repeat split. destruct (j_open j); rewrite ?app_nil_s; auto.
    rewrite app_assoc_s. f_equal. clear. induction n; cbn; auto. f_equal. f_equal. exact IHn.
Qed.
Lemma iter_upd n s id jr : nth_error (heap s) id = Some jr ->
  let s' := Nat.iter n (fun s => upd s id (write "  ")) s in
  heap s' = set_nth id (Nat.iter n (write "  ") jr) (heap s) /\ regs s' = regs s.
Proof.
  intros N. cbn zeta. induction n.
  - cbn. split; auto. clear -N. revert id N. generalize (heap s) as l. induction l as [|b l IH]; intros [|id] N; cbn in *; try discriminate.
    + injection N as ->. auto.
    + f_equal. auto.
  - destruct IHn as [A B].
    change (Nat.iter (S n) (fun s => upd s id (write "  ")) s) with (upd (Nat.iter n (fun s => upd s id (write "  ")) s) id (write "  ")).
    change (Nat.iter (S n) (write "  ") jr) with (write "  " (Nat.iter n (write "  ") jr)).
    rewrite upd_regs. split; auto. unfold upd at 1. rewrite A.
    rewrite set_nth_nth, Nat.eqb_refl, N. cbn. clear.
    generalize (heap s) as l, (Nat.iter n (write "  ") jr) as a. intros l; revert id. induction l as [|b l IH]; intros [|id] a; cbn; auto.
    f_equal. auto.
Qed.
Lemma set_nth_twice {A} i (a b : A) l : set_nth i a (set_nth i b l) = set_nth i a l.
Proof. revert i; induction l as [|c l IH]; intros [|i]; cbn; auto. f_equal; auto. Qed.
Lemma indented_body n t s id jr : nth_error (heap s) id = Some jr ->
  upd (Nat.iter n (fun s => upd s id (write "  ")) s) id (write t) = upd s id (indent_write n t).
Proof.
  intros N. destruct (iter_upd n s id jr N) as [A B]. unfold upd at 1 3. rewrite A, set_nth_nth, Nat.eqb_refl, N, B.
  cbn. rewrite set_nth_twice. reflexivity.
Qed.
Lemma vprintf_indented_loop l c n t s : vprintf_indented l c n t s =
  fold_left (fun s id => match nth_error (heap s) id with
    | Some j => if is_accepted j c l then upd s id (indent_write n t) else s | None => s end) (regs s) s.
Proof.
  unfold vprintf_indented. generalize (regs s) as ids. intros ids. revert s. induction ids as [|id ids IH]; intros s; cbn; auto.
  rewrite <- IH. f_equal. destruct (nth_error (heap s) id) as [j|] eqn:N; auto. destruct (is_accepted j c l); auto.
  apply indented_body with (1 := N).
Qed.

Lemma accepted_level h j jr c l : describes h j jr -> c < J_LAST_CATEGORY ->
  is_accepted jr c l = match level_in_force h j c with Some x => (l <=? x)%Z | None => false end.
Proof. intros (_ & _ & _ & D & _) C. unfold is_accepted. rewrite D by auto. reflexivity. Qed.

Lemma in_existsb k l : existsb (Nat.eqb k) l = true <-> In k l.
Proof.
  rewrite existsb_exists. split.
  - intros (x & I & E). apply Nat.eqb_eq in E. subst; auto.
  - intros I. exists k. rewrite Nat.eqb_refl. auto.
Qed.

Lemma set_all_levels_spec l j : j_name (set_all_levels l j) = j_name j /\ j_open (set_all_levels l j) = j_open j /\
  j_out (set_all_levels l j) = j_out j /\ List.length (j_levels (set_all_levels l j)) = List.length (j_levels j) /\
  forall c, nth_error (j_levels (set_all_levels l j)) c =
    if (c <? J_USER_APPLICATION)%nat then option_map (fun _ => l) (nth_error (j_levels j) c) else nth_error (j_levels j) c.
Proof.
  unfold set_all_levels, J_DBG. rewrite Nat.sub_0_r. generalize J_USER_APPLICATION as n. intros n.
  induction n.
  - cbn. repeat split; auto.
  - rewrite seq_S, fold_left_app. cbn [fold_left Nat.add]. destruct IHn as (A & B & C & D & E).
    set (j' := fold_left _ (seq 0 n) j) in *. unfold set_level at 1 2 3 4 5. cbn [j_name j_open j_out j_levels].
    rewrite set_nth_len. repeat split; auto. intros c. rewrite set_nth_nth.
    destruct (Nat.eqb_spec c n) as [->|NE].
    + rewrite E. rewrite Nat.ltb_irrefl. destruct (Nat.ltb_spec n (S n)); [|lia]. destruct (nth_error (j_levels j) n); auto.
    + rewrite E. destruct (Nat.ltb_spec c n), (Nat.ltb_spec c (S n)); auto; lia.
Qed.

Lemma nth_error_snoc {A} (l : list A) a k : nth_error (l ++ [a])%list k =
  if (k =? List.length l)%nat then Some a else nth_error l k.
Proof.
  destruct (Nat.eqb_spec k (List.length l)) as [->|NE].
  - rewrite nth_error_app2, Nat.sub_diag by lia. reflexivity.
  - destruct (Nat.lt_ge_cases k (List.length l)); [apply nth_error_app1; auto|].
    rewrite nth_error_app2 by lia. destruct (k - List.length l) eqn:E; [lia|]. cbn.
    destruct n; cbn; symmetry; apply nth_error_None; lia.
Qed.
Lemma contents_none h j : created h <= j -> contents h j = "".
Proof.
  induction h as [|o h IH]; auto. destruct o; cbn; auto; intros L; try (apply IH; lia).
  - rewrite IH by lia. unfold goes_to_b. rewrite stream_none, andb_false_r by lia. reflexivity.
  - rewrite IH by lia. unfold goes_to_b. rewrite stream_none, andb_false_r by lia. reflexivity.
Qed.

Lemma repeat_nth {A} (a : A) n k : k < n -> nth_error (repeat a n) k = Some a.
Proof. revert k; induction n; intros [|k] L; cbn; try lia; auto. apply IHn; lia. Qed.

Lemma inv_print h s l c t f : Inv h s -> c < J_LAST_CATEGORY ->
  (forall j, j_name (f j) = j_name j /\ j_levels (f j) = j_levels j /\ j_open (f j) = j_open j /\
     j_out (f j) = j_out j ++ (if j_open j then t else "")) ->
  forall s', s' = fold_left (fun s id => match nth_error (heap s) id with
    | Some j => if is_accepted j c l then upd s id f else s | None => s end) (regs s) s ->
  forall h', (forall j, name_of h' j = name_of h j) -> (forall j, has_stream h' j = has_stream h j) ->
   (forall j c, level_in_force h' j c = level_in_force h j c) -> (forall j, registered h' j = registered h j) ->
   created h' = created h -> (forall j, contents h' j = contents h j ++ (if goes_to_b h l c j then t else "")) -> Inv h' s'.
Proof.
  intros (L & D & ND & R) C F s' E h' H1 H2 H3 H4 H5 H6.
  destruct (loop_spec f (fun j => is_accepted j c l) (regs s) s ND) as (A & B & K). cbn zeta in *. rewrite <- E in *.
  split; [congruence|]. split; [|split; [congruence|intros j; rewrite A, R, H4; tauto]].
  intros j jr N. rewrite K in N. destruct (nth_error (heap s) j) as [j0|] eqn:N0; [|discriminate]. cbn in N.
  pose proof (D _ _ N0) as DJ. pose proof (accepted_level _ _ _ _ l DJ C) as AC. destruct DJ as (D1 & D2 & D3 & D4 & D5).
  assert (EX : existsb (Nat.eqb j) (regs s) = registered h j).
  { apply eq_true_iff_eq. rewrite in_existsb. apply R. }
  rewrite EX, AC in N. destruct (F j0) as (F1 & F2 & F3 & F4).
  unfold describes. rewrite H1, H2, H6. unfold goes_to_b. rewrite D2, D5.
  destruct (registered h j) eqn:RG, (match level_in_force h j c with Some x => (l <=? x)%Z | None => false end) eqn:LV; cbn in N |- *;
    try (injection N as <-; rewrite ?andb_false_r; cbn; rewrite app_nil_s; repeat split; auto; intros; rewrite H3; auto).
  injection N as <-. rewrite F1, F2, F3, F4, andb_true_r. repeat split; auto. intros; rewrite H3; auto.
Qed.

Lemma opens_spec f ok : opens f ok = ((f =? "stdout") || (f =? "stderr") || ok)%bool.
Proof.
  unfold opens. rewrite (String.eqb_sym "stdout"), (String.eqb_sym "stderr"). destruct (f =? "stdout"), (f =? "stderr"); reflexivity.
Qed.

Lemma inv_create h s n l o fl : Inv h s ->
  forall h', (forall j, name_of h' j = if (j =? created h)%nat then Some n else name_of h j) ->
   (forall j, has_stream h' j = if (j =? created h)%nat then o else has_stream h j) ->
   (forall j c, level_in_force h' j c = if (j =? created h)%nat then Some l else level_in_force h j c) ->
   (forall j, registered h' j = registered h j || ((j =? created h)%nat && fl)) ->
   created h' = S (created h) -> (forall j, contents h' j = contents h j) ->
  Inv h' (St (heap s ++ [new_journal n l o])%list (if fl then (regs s ++ [created h])%list else regs s)).
Proof.
  intros (L & D & ND & R) h' H1 H2 H3 H4 H5 H6. unfold Inv. cbn [heap regs]. rewrite app_length. cbn [List.length].
  split; [lia|]. split; [|split].
  - intros j jr N. rewrite nth_error_snoc in N. unfold describes. rewrite H1, H2, H6. rewrite L in N.
    destruct (Nat.eqb_spec j (created h)) as [->|NE].
    + injection N as <-. unfold new_journal. cbn [j_name j_open j_levels j_out]. rewrite repeat_length, contents_none by lia.
      repeat split; auto. intros c C. rewrite repeat_nth, H3, Nat.eqb_refl by auto. reflexivity.
    + destruct (D _ _ N) as (D1 & D2 & D3 & D4 & D5). repeat split; auto. intros c C. rewrite H3.
      destruct (Nat.eqb_spec j (created h)); [lia|]. auto.
  - destruct fl; auto. apply NoDup_rev in ND. rewrite <- (rev_involutive (regs s)). change [created h] with (rev [created h]).
    rewrite <- rev_app_distr. apply NoDup_rev. constructor; auto. intros I. apply in_rev, R, registered_lt in I. lia.
  - intros j. rewrite H4. rewrite orb_true_iff, andb_true_iff, Nat.eqb_eq, <- R. destruct fl.
    + rewrite in_app_iff. cbn. intuition congruence.
    + intuition congruence.
Qed.

Lemma inv_step h s o : Inv h s -> valid_op o -> Inv (o :: h) (step s o).
Proof.
  intros IV V. pose proof IV as (L & D & ND & R). destruct o; cbn [step valid_op] in *.
  - apply (inv_create h s name default_level open false); auto; intros; cbn. rewrite andb_false_r, orb_false_r. reflexivity.
  - unfold add_journal. destruct (nth_error (heap s) id) as [jr|] eqn:N.
    + destruct (D _ _ N) as (NM & _). pose proof (get_journal_taken h s (j_name jr) IV) as GT.
      destruct (get_journal (j_name jr) s) as [k|] eqn:G; cbn [snd].
      * assert (TK : name_taken h (registered h) (j_name jr) = true) by (apply GT; discriminate).
        split; [exact L|]. split; [exact D|]. split; [exact ND|]. intros j. cbn. rewrite R.
        destruct (registered h j) eqn:RG; cbn; [tauto|]. destruct (Nat.eqb_spec j id) as [->|]; cbn; [|split; auto].
        rewrite NM, TK. cbn. split; auto.
      * assert (TK : name_taken h (registered h) (j_name jr) = false).
        { apply not_true_is_false. intros E. apply GT in E. congruence. }
        split; [exact L|]. split; [exact D|]. cbn [regs].
        assert (NI : ~ In id (regs s)).
        { intros I. unfold get_journal in G. pose proof (find_none _ _ G _ I) as X. cbn in X. rewrite N in X. rewrite String.eqb_refl in X. discriminate. }
        split.
        -- apply NoDup_rev in ND. rewrite <- (rev_involutive (regs s)). change [id] with (rev [id]).
           rewrite <- rev_app_distr. apply NoDup_rev. constructor; auto. intros I. apply in_rev in I. auto.
        -- intros j. rewrite in_app_iff. cbn. rewrite R. rewrite orb_true_iff, andb_true_iff, Nat.eqb_eq.
           split; [intros [A|[->|[]]]; auto|intros [A|[-> _]]; auto]. right. rewrite NM, TK. auto.
    + cbn [snd]. split; [exact L|]. split; [exact D|]. split; [exact ND|]. intros j. cbn. rewrite R.
      destruct (registered h j) eqn:RG; cbn; [tauto|]. destruct (Nat.eqb_spec j id) as [->|]; cbn; [|split; auto].
      rewrite name_of_none; [split; auto|]. rewrite <- L. apply nth_error_None. auto.
  - unfold add_file_journal. destruct (opens fname fopen_ok) eqn:OP; cbn [snd].
    + unfold add_journal. cbn [heap regs]. rewrite nth_error_snoc, Nat.eqb_refl. cbn [j_name new_journal].
      assert (GS : get_journal name {| heap := heap s ++ [new_journal name default_level true]; regs := regs s |}%list = get_journal name s).
      { unfold get_journal. cbn [heap regs]. assert (X : forall j, In j (regs s) -> j < List.length (heap s)).
        { intros j I. apply R, registered_lt in I. lia. }
        revert X. generalize (regs s). induction l as [|x l IH]; intros X; cbn; auto.
        rewrite nth_error_snoc. destruct (Nat.eqb_spec x (List.length (heap s))).
        - assert (x < List.length (heap s)) by (apply X; cbn; auto). lia.
        - rewrite IH by (intros; apply X; cbn; auto). reflexivity. }
      rewrite GS. pose proof (get_journal_taken h s name IV) as GT.
      destruct (get_journal name s) as [k|] eqn:G; cbn [snd].
      * assert (TK : name_taken h (registered h) name = true) by (apply GT; discriminate).
        apply (inv_create h s name default_level true false); auto; intros; cbn; rewrite <- ?opens_spec, ?OP, ?TK; auto.
        cbn. rewrite !andb_false_r, orb_false_r. reflexivity.
      * assert (TK : name_taken h (registered h) name = false).
        { apply not_true_is_false. intros E. apply GT in E. congruence. }
        rewrite L. apply (inv_create h s name default_level true true); auto; intros; cbn; rewrite <- ?opens_spec, ?OP, ?TK; auto. cbn. rewrite !andb_true_r. reflexivity.
    + apply (inv_create h s name default_level false false); auto; intros; cbn; rewrite <- ?opens_spec, ?OP; auto.
      rewrite !andb_false_r. cbn. rewrite !orb_false_r. reflexivity.
  - split; [rewrite upd_len; exact L|]. rewrite upd_regs. split; [|split; [exact ND|exact R]].
    intros j jr N. rewrite upd_heap in N. unfold describes. cbn [name_of has_stream level_in_force contents].
    destruct (Nat.eqb_spec j id) as [->|NE].
    + destruct (nth_error (heap s) id) as [j0|] eqn:N0; [|discriminate]. injection N as <-.
      destruct (D _ _ N0) as (D1 & D2 & D3 & D4 & D5). unfold set_level. cbn [j_name j_open j_levels j_out]. rewrite set_nth_len.
      repeat split; auto. intros c C. rewrite set_nth_nth. cbn [andb].
      assert (LT : (id <? created h)%nat = true) by (apply Nat.ltb_lt, (name_of_lt _ _ _ D1)). rewrite LT, andb_true_r.
      destruct (c =? category)%nat; auto. destruct (nth_error (j_levels j0) category) eqn:X; auto.
      apply nth_error_None in X. lia.
    + destruct (D _ _ N) as (D1 & D2 & D3 & D4 & D5). cbn [andb]. repeat split; auto.
  - split; [rewrite upd_len; exact L|]. rewrite upd_regs. split; [|split; [exact ND|exact R]].
    intros j jr N. rewrite upd_heap in N. unfold describes. cbn [name_of has_stream level_in_force contents].
    destruct (Nat.eqb_spec j id) as [->|NE].
    + destruct (nth_error (heap s) id) as [j0|] eqn:N0; [|discriminate]. injection N as <-.
      destruct (D _ _ N0) as (D1 & D2 & D3 & D4 & D5). destruct (set_all_levels_spec level j0) as (S1 & S2 & S3 & S4 & S5).
      rewrite S1, S2, S3, S4. repeat split; auto. intros c C. rewrite S5. cbn [andb].
      assert (LT : (id <? created h)%nat = true) by (apply Nat.ltb_lt, (name_of_lt _ _ _ D1)). rewrite LT, andb_true_r.
      destruct (c <? J_USER_APPLICATION)%nat; auto. destruct (nth_error (j_levels j0) c) eqn:X; auto.
      apply nth_error_None in X. lia.
    + destruct (D _ _ N) as (D1 & D2 & D3 & D4 & D5). cbn [andb]. repeat split; auto.
  - split; [exact L|]. split; [exact D|]. split; [constructor|]. intros j. cbn. split; [tauto|discriminate].
  - apply (inv_print h s level category text (write text) IV V); auto. intros j. apply write_fields.
  - apply (inv_print h s level category (spaces2 indent_level ++ text) (indent_write indent_level text) IV V); auto.
    + intros j. unfold indent_write. destruct (iter_write indent_level j) as (A & B & C & E).
      destruct (write_fields text (Nat.iter indent_level (write "  ") j)) as (A' & B' & C' & E').
      rewrite A', B', C', E', A, B, C, E. repeat split. destruct (j_open j); rewrite ?app_nil_s, ?app_assoc_s; auto.
    + apply vprintf_indented_loop.
Qed.
Lemma inv_run h : Forall valid_op h -> Inv h (run (rev h) start).
Proof.
  induction h as [|o h IH]; intros F.
  - cbn. split; auto. split; [intros [|j] jr N; discriminate|]. split; [constructor|]. intros j. cbn. split; [tauto|discriminate].
  - inversion F; subst. cbn [rev]. unfold run. rewrite fold_left_app. cbn [fold_left]. apply inv_step; auto.
Qed.
