From Coq Require Import List ZArith Bool Reals String Lia Lra.
From Verif Require Import Num OptText OptModel OptSpec.
Import ListNotations.
Open Scope Z_scope.

Lemma str_eqb_eq a b : str_eqb a b = true <-> a = b.
Proof.
  revert b. induction a as [|x a IH]; destruct b as [|y b]; cbn; try (split; congruence).
  rewrite andb_true_iff, Z.eqb_eq, IH. split; [intros (-> & ->); reflexivity|intros H; injection H as -> ->; auto].
Qed.
Lemma str_eqb_refl a : str_eqb a a = true.
Proof. apply str_eqb_eq; reflexivity. Qed.
Lemma str_eqb_neq a b : a <> b -> str_eqb a b = false.
Proof. intros H. destruct (str_eqb a b) eqn:E; [|reflexivity]. apply str_eqb_eq in E. contradiction. Qed.

(** ** Store *)
Lemma stored_put_same s t n e : same_name t n -> stored (put s (lowercase t) e) n = match e with Some x => Some (val x, clob x) | None => None end.
Proof. unfold same_name, stored, put, lowercase. intros ->. rewrite str_eqb_refl. reflexivity. Qed.
Lemma stored_put_other s t n e : ~ same_name t n -> stored (put s (lowercase t) e) n = stored s n.
Proof. unfold same_name, stored, put, lowercase. intros H. rewrite str_eqb_neq; [reflexivity|congruence]. Qed.
Lemma stored_bump s k n : stored (bump s k) n = stored s n.
Proof.
  unfold stored, bump. destruct (s k) as [e|] eqn:E; [|reflexivity]. unfold put.
  destruct (str_eqb (map tolower n) k) eqn:Q; [|reflexivity]. apply str_eqb_eq in Q. rewrite Q, E. reflexivity.
Qed.
Lemma stored_same s t n : same_name t n -> stored s t = stored s n.
Proof. unfold same_name, stored. intros ->. reflexivity. Qed.
Lemma clobber_stored s t : will_allow_clobber s t = match stored s t with Some (_, b) => b | None => true end.
Proof. unfold will_allow_clobber, stored, lowercase. destruct (s (map tolower t)); reflexivity. Qed.

Lemma finish_set_ret s t v a d : fst (finish_set s t v a d) = true.
Proof. unfold finish_set. destruct (will_allow_clobber s t); reflexivity. Qed.
Lemma finish_set_stored s t v a d n : stored (snd (finish_set s t v a d)) n = spec_write n t v a true (stored s n).
Proof.
  unfold finish_set, spec_write. rewrite clobber_stored. destruct (same_name_dec t n) as [E|E].
  - rewrite (stored_same s t n E). destruct (stored s n) as [[x [|]]|] eqn:Q; cbn [snd].
    + rewrite stored_put_same by exact E. reflexivity.
    + rewrite stored_bump. exact Q.
    + rewrite stored_put_same by exact E. reflexivity.
  - destruct (match stored s t with Some (_, b) => b | None => true end); cbn [snd]; [apply stored_put_other; exact E|apply stored_bump].
Qed.
Lemma set_checked_cases r s t w ok v a d :
  set_checked r s t w ok v a d = (false, s) \/ set_checked r s t w ok v a d = finish_set s t v a d.
Proof.
  unfold set_checked. destruct r as [rg|]; [|right; reflexivity]. destruct (get_option rg t) as [o|]; [|left; reflexivity].
  destruct (negb (otype_eqb (ty o) w)); [left; reflexivity|]. destruct (negb (ok o)); [left|right]; reflexivity.
Qed.
Lemma set_checked_stored r s t w ok v a d n :
  stored (snd (set_checked r s t w ok v a d)) n = spec_write n t v a (fst (set_checked r s t w ok v a d)) (stored s n).
Proof.
  destruct (set_checked_cases r s t w ok v a d) as [E|E]; rewrite E.
  - cbn [fst snd]. unfold spec_write. destruct (same_name_dec t n); reflexivity.
  - rewrite finish_set_ret. apply finish_set_stored.
Qed.

Lemma find_tag_spec s t p : fst (find_tag s t p) = user_text s t p /\ forall n, stored (snd (find_tag s t p)) n = stored s n.
Proof.
  assert (L : forall k, fst (match s k with Some e => (Some (val e), bump s k) | None => (None, s) end) = match s k with Some e => Some (val e) | None => None end
           /\ forall n, stored (snd (match s k with Some e => (Some (val e), bump s k) | None => (None, s) end)) n = stored s n).
  { intros k. destruct (s k); cbn [fst snd]; split; try reflexivity. intros n; apply stored_bump. }
  assert (T : match s (lowercase t) with Some e => Some (val e) | None => None end = match stored s t with Some (v, _) => Some v | None => None end).
  { unfold stored, lowercase. destruct (s (map tolower t)); reflexivity. }
  unfold find_tag, user_text. destruct p as [|c p].
  - cbn [app]. destruct (L (lowercase t)) as (L1 & L2). split; [rewrite L1, T; reflexivity|exact L2].
  - unfold stored at 1. change (map tolower ((c :: p) ++ t)) with (lowercase ((c :: p) ++ t)). cbv zeta.
    destruct (s (lowercase ((c :: p) ++ t))) as [e|] eqn:E.
    + destruct (L (lowercase ((c :: p) ++ t))) as (L1 & L2). rewrite E in L1, L2. split; [rewrite L1; reflexivity|exact L2].
    + destruct (L (lowercase t)) as (L1 & L2). split; [rewrite L1, T; reflexivity|exact L2].
Qed.

Lemma user_text_nil s t : user_text s t [] = match stored s t with Some (v, _) => Some v | None => None end.
Proof. reflexivity. Qed.

Ltac ft := match goal with |- context [find_tag ?s ?t ?p] =>
  let H := fresh in let F := fresh "f" in let S := fresh "s" in
  pose proof (find_tag_spec s t p) as H; destruct (find_tag s t p) as [F S]; cbn [fst snd] in H end.

Lemma get_string_stored r s t p n : stored (drop_val (get_string r s t p) s) n = stored s n.
Proof.
  unfold get_string. ft. destruct H as (_ & H). destruct (typed r t OT_String) as [o|]; cbn [obind drop_val]; [|reflexivity].
  destruct f, o; apply H.
Qed.
Lemma get_number_stored r s t p n : stored (drop_val (get_number r s t p) s) n = stored s n.
Proof.
  unfold get_number. destruct (typed r t OT_Number) as [o|]; cbn [obind drop_val]; [|reflexivity]. ft. destruct H as (_ & H).
  destruct f as [v|]; [destruct (text_number v); [apply H|reflexivity]|]. destruct o; apply H.
Qed.
Lemma get_integer_stored r s t p n : stored (drop_val (get_integer r s t p) s) n = stored s n.
Proof.
  unfold get_integer. destruct (typed r t OT_Integer) as [o|]; cbn [obind drop_val]; [|reflexivity]. ft. destruct H as (_ & H).
  destruct f as [v|]; [destruct (text_integer v); [apply H|reflexivity]|]. destruct o; apply H.
Qed.
Lemma get_enum_stored r s t p n : stored (drop_val (get_enum r s t p) s) n = stored s n.
Proof.
  unfold get_enum. ft. destruct H as (_ & H). destruct (typed r t OT_String) as [o|]; cbn [obind drop_val]; [|reflexivity].
  destruct f as [v|], o as [o|]; cbn [drop_val]; try apply H.
  - destruct (map_enum o v); cbn [obind drop_val]; [apply H|reflexivity].
  - destruct (map_enum o (default_string o)); cbn [obind drop_val]; [apply H|reflexivity].
Qed.
Lemma get_bool_stored r s t p n : stored (drop_val (get_bool r s t p) s) n = stored s n.
Proof.
  unfold get_bool. pose proof (get_string_stored r s t p n) as H. destruct (get_string r s t p) as [[[b v] s']|]; cbn [obind drop_val] in *; [|reflexivity].
  destruct (is_one_of _ _); [exact H|]. destruct (is_one_of _ _); [exact H|reflexivity].
Qed.

Lemma found_string r s t b v s' : get_string r s t [] = Ret (b, v, s') -> b = match stored s t with Some _ => true | None => false end /\ forall n, stored s' n = stored s n.
Proof.
  intros E. split.
  - unfold get_string in E. pose proof (find_tag_spec s t []) as H. destruct (find_tag s t []) as [f s1]. cbn [fst snd] in H. destruct H as (H & _).
    rewrite user_text_nil in H. destruct (typed r t OT_String) as [o|]; cbn [obind] in E; [|discriminate].
    destruct f, o; injection E as <- _ _; destruct (stored s t) as [[? ?]|]; congruence.
  - intros n. pose proof (get_string_stored r s t [] n) as H. rewrite E in H. exact H.
Qed.
Lemma found_number r s t b v s' : get_number r s t [] = Ret (b, v, s') -> b = match stored s t with Some _ => true | None => false end /\ forall n, stored s' n = stored s n.
Proof.
  intros E. split.
  - unfold get_number in E. destruct (typed r t OT_Number) as [o|]; cbn [obind] in E; [|discriminate].
    pose proof (find_tag_spec s t []) as H. destruct (find_tag s t []) as [f s1]. cbn [fst snd] in H. destruct H as (H & _). rewrite user_text_nil in H.
    destruct f as [x|]; [destruct (text_number x); [|discriminate]|destruct o]; injection E as <- _ _; destruct (stored s t) as [[? ?]|]; congruence.
  - intros n. pose proof (get_number_stored r s t [] n) as H. rewrite E in H. exact H.
Qed.
Lemma found_integer r s t b v s' : get_integer r s t [] = Ret (b, v, s') -> b = match stored s t with Some _ => true | None => false end /\ forall n, stored s' n = stored s n.
Proof.
  intros E. split.
  - unfold get_integer in E. destruct (typed r t OT_Integer) as [o|]; cbn [obind] in E; [|discriminate].
    pose proof (find_tag_spec s t []) as H. destruct (find_tag s t []) as [f s1]. cbn [fst snd] in H. destruct H as (H & _). rewrite user_text_nil in H.
    destruct f as [x|]; [destruct (text_integer x); [|discriminate]|destruct o]; injection E as <- _ _; destruct (stored s t) as [[? ?]|]; congruence.
  - intros n. pose proof (get_integer_stored r s t [] n) as H. rewrite E in H. exact H.
Qed.

(** IfUnset: common argument. *)
Lemma if_unset_stored (s s' : store) (t text : str) (a : bool) (b : bool) (res : bool * store) n :
  b = match stored s t with Some _ => true | None => false end -> (forall n, stored s' n = stored s n) ->
  (stored (snd res) n = spec_write n t text a (fst res) (stored s' n)) ->
  stored (snd (if b then (true, s') else res)) n =
  match stored s n with None => spec_write n t text a (fst (if b then (true, s') else res)) (stored s n) | Some _ => stored s n end.
Proof.
  intros Hb Hs Hr. destruct b; cbn [fst snd].
  - rewrite Hs. destruct (stored s n) eqn:E; [reflexivity|]. unfold spec_write. destruct (same_name_dec t n) as [Q|Q]; [|reflexivity].
    rewrite (stored_same s t n Q), E in Hb. discriminate.
  - rewrite Hr, Hs. destruct (stored s n) eqn:E; [|reflexivity]. unfold spec_write. destruct (same_name_dec t n) as [Q|Q]; [|reflexivity].
    rewrite (stored_same s t n Q), E in Hb. discriminate.
Qed.

Lemma step_spec r s c n : stored (step r s c) n = spec_step n (stored s n) (c, returned r s c).
Proof.
  destruct c; cbn [step spec_step returned];
    try (apply set_checked_stored);
    try (apply get_string_stored); try (apply get_number_stored); try (apply get_integer_stored); try (apply get_enum_stored); try (apply get_bool_stored);
    try reflexivity.
  - unfold set_string_if_unset. destruct (get_string r s t []) as [[[b x] s']|] eqn:E; cbn [obind drop_val2 fst snd].
    + destruct (found_string _ _ _ _ _ _ E) as (H1 & H2).
      assert (Q := if_unset_stored s s' t v allow b (set_string r s' t v allow dp) n H1 H2 (set_checked_stored _ _ _ _ _ _ _ _ _)).
      destruct (if b then (true, s') else set_string r s' t v allow dp). exact Q.
    + destruct (stored s n); [reflexivity|]. unfold spec_write. destruct (same_name_dec t n); reflexivity.
  - unfold set_number_if_unset. destruct (get_number r s t []) as [[[b x] s']|] eqn:E; cbn [obind drop_val2 fst snd].
    + destruct (found_number _ _ _ _ _ _ E) as (H1 & H2).
      assert (Q := if_unset_stored s s' t (fmt_g v) allow b (set_number r s' t v allow dp) n H1 H2 (set_checked_stored _ _ _ _ _ _ _ _ _)).
      destruct (if b then (true, s') else set_number r s' t v allow dp). exact Q.
    + destruct (stored s n); [reflexivity|]. unfold spec_write. destruct (same_name_dec t n); reflexivity.
  - unfold set_integer_if_unset. destruct (get_integer r s t []) as [[[b x] s']|] eqn:E; cbn [obind drop_val2 fst snd].
    + destruct (found_integer _ _ _ _ _ _ E) as (H1 & H2).
      assert (Q := if_unset_stored s s' t (fmt_d v) allow b (set_integer r s' t v allow dp) n H1 H2 (set_checked_stored _ _ _ _ _ _ _ _ _)).
      destruct (if b then (true, s') else set_integer r s' t v allow dp). exact Q.
    + destruct (stored s n); [reflexivity|]. unfold spec_write. destruct (same_name_dec t n); reflexivity.
  - unfold unset. rewrite clobber_stored. destruct (same_name_dec t n) as [E|E].
    + rewrite (stored_same s t n E). destruct (stored s n) as [[x [|]]|] eqn:Q; cbn [snd].
      * rewrite stored_put_same by exact E. reflexivity.
      * rewrite stored_bump; exact Q.
      * rewrite stored_put_same by exact E. reflexivity.
    + destruct (match stored s t with Some (_, b) => b | None => true end); cbn [snd]; [apply stored_put_other; exact E|apply stored_bump].
Qed.

Lemma run_spec_from r l : forall s n, stored (fold_left (step r) l s) n = fold_left (spec_step n) (trace r s l) (stored s n).
Proof.
  induction l as [|c l IH]; intros s n; [reflexivity|]. cbn [fold_left trace]. rewrite IH. rewrite step_spec. reflexivity.
Qed.
Lemma run_spec r l n : stored (run r l) n = last_write n (trace r empty l).
Proof. apply run_spec_from. Qed.

Lemma spec_locked n v cr : fst cr <> Clear -> spec_step n (Some (v, false)) cr = Some (v, false).
Proof.
  destruct cr as [c b]; cbn [fst]. intros H. destruct c; cbn [spec_step]; unfold spec_write; try reflexivity; try contradiction;
    destruct (same_name_dec _ n); destruct b; reflexivity.
Qed.
Lemma locked_forever r l n v : forall s, (forall c, In c l -> c <> Clear) -> stored s n = Some (v, false) ->
  stored (fold_left (step r) l s) n = Some (v, false).
Proof.
  induction l as [|c l IH]; intros s H E; [exact E|]. cbn [fold_left]. apply IH; [intros x Hx; apply H; right; exact Hx|].
  rewrite step_spec, E. apply spec_locked. apply (H c); left; reflexivity.
Qed.

(** ** Get *)
Lemma after_dot_spec : forall s acc tag, ~ In 46 acc -> (after_dot s acc = tag <->
    (~ In 46 s /\ tag = acc) \/ (~ In 46 tag /\ exists p, s = p ++ 46 :: tag)).
Proof.
  induction s as [|c s IH]; intros acc tag Ha.
  - cbn. split; [intros <-; left; auto|]. intros [(_ & ->)|(_ & p & E)]; [reflexivity|]. destruct p; discriminate.
  - cbn [after_dot]. destruct (Z.eqb_spec c 46) as [->|N].
    + destruct (in_dec Z.eq_dec 46 s) as [I|I].
      * assert (Gen : forall acc, after_dot s acc = after_dot s []).
        { clear - I. induction s as [|c s IH]; [destruct I|]. intros acc. cbn. destruct (Z.eqb_spec c 46); [reflexivity|].
          destruct I as [I|I]; [contradiction|]. apply (IH I). }
        rewrite Gen. rewrite (IH [] tag (fun x => x)). split.
        -- intros [(H & _)|(H & p & E)]; [contradiction|]. right. split; [exact H|]. exists (46 :: p). rewrite E. reflexivity.
        -- intros [(H & _)|(H & p & E)]; [destruct H; left; reflexivity|]. right. split; [exact H|]. destruct p as [|x p].
           ++ cbn in E. injection E as ->. contradiction.
           ++ injection E as -> E. exists p. exact E.
      * assert (Gen : after_dot s s = s).
        { clear - I. assert (G : forall acc, after_dot s acc = acc); [|apply G]. induction s as [|c s IH]; intros acc; [reflexivity|]. cbn.
          destruct (Z.eqb_spec c 46) as [->|N]; [destruct I; left; reflexivity|]. apply IH. intros H; apply I; right; exact H. }
        rewrite Gen. split.
        -- intros <-. right. split; [exact I|]. exists []. reflexivity.
        -- intros [(H & _)|(H & p & E)]; [destruct H; left; reflexivity|]. destruct p as [|x p]; [injection E; auto|].
           injection E as _ E. destruct I. rewrite E. apply in_or_app. right; left; reflexivity.
    + rewrite (IH acc tag Ha). split.
      * intros [(H & E)|(H & p & E)]; [left|right].
        -- split; [intros [Q|Q]; [congruence|contradiction]|exact E].
        -- split; [exact H|]. exists (c :: p). rewrite E. reflexivity.
      * intros [(H & E)|(H & p & E)]; [left|right].
        -- split; [intros Q; apply H; right; exact Q|exact E].
        -- split; [exact H|]. destruct p as [|x p]; [cbn in E; congruence|]. injection E as -> E. exists p. exact E.
Qed.

Lemma after_dot_any s : forall acc acc', In 46 s -> after_dot s acc = after_dot s acc'.
Proof.
  induction s as [|c s IH]; intros acc acc' I; [destruct I|]. cbn. destruct (Z.eqb_spec c 46); [reflexivity|].
  destruct I as [I|I]; [contradiction|]. apply IH; exact I.
Qed.
Lemma after_dot_base name : base_name name (after_dot name name).
Proof.
  destruct (in_dec Z.eq_dec 46 name) as [I|I].
  - rewrite (after_dot_any name name [] I). destruct (after_dot_spec name [] (after_dot name []) (fun x => x)) as (H & _).
    destruct (H eq_refl) as [(Q & _)|(Q1 & p & Q2)]; [contradiction|]. split; [exact Q1|right; exists p; exact Q2].
  - destruct (after_dot_spec name name (after_dot name name) I) as (H & _). destruct (H eq_refl) as [(_ & Q)|(Q1 & p & Q2)].
    + rewrite Q. split; [exact I|left; reflexivity].
    + split; [exact Q1|right; exists p; exact Q2].
Qed.
Lemma base_name_unique name a b : base_name name a -> base_name name b -> a = b.
Proof.
  intros (A1 & A2) (B1 & B2).
  assert (G : forall (p q x y : str), ~ In 46 x -> ~ In 46 y -> p ++ 46 :: x = q ++ 46 :: y -> x = y).
  { induction p as [|c p IH]; intros q x y Hx Hy E.
    - destruct q as [|d q]; [injection E; auto|]. cbn in E. injection E as _ E. destruct Hx. rewrite E. apply in_or_app; right; left; reflexivity.
    - destruct q as [|d q]; [cbn in E; injection E as _ E; destruct Hy; rewrite <- E; apply in_or_app; right; left; reflexivity|].
      injection E as _ E. eapply IH; eauto. }
  destruct A2 as [->|(p & ->)], B2 as [E|(q & E)].
  - exact E.
  - destruct A1. rewrite E. apply in_or_app; right; left; reflexivity.
  - destruct B1. rewrite <- E. apply in_or_app; right; left; reflexivity.
  - eapply G; eauto.
Qed.
Lemma get_option_spec rg name o : get_option rg name = Some o <-> registered rg name o.
Proof.
  unfold get_option, registered. split.
  - intros H. exists (after_dot name name). split; [apply after_dot_base|exact H].
  - intros (tag & B & E). rewrite (base_name_unique name _ tag (after_dot_base name) B). exact E.
Qed.

Lemma otype_eqb_eq a b : otype_eqb a b = true <-> a = b.
Proof. destruct a, b; cbn; split; congruence. Qed.

Definition result_of {A B} (x : out (A * B * store)) : option (A * B) := match x with Ret (a, b, _) => Some (a, b) | Throw => None end.

Lemma typed_ok rg t o w : registered rg t o -> ty o = w -> typed (Some rg) t w = Ret (Some o).
Proof. intros H E. unfold typed. apply get_option_spec in H. rewrite H. subst w. destruct (ty o); reflexivity. Qed.
Lemma typed_bad rg t w : ~ (exists o, registered rg t o /\ ty o = w) -> typed (Some rg) t w = Throw.
Proof.
  intros H. unfold typed. destruct (get_option rg t) as [o|] eqn:E; [|reflexivity]. destruct (otype_eqb (ty o) w) eqn:Q; [|reflexivity].
  destruct H. exists o. split; [apply get_option_spec; exact E|apply otype_eqb_eq; exact Q].
Qed.

Lemma get_string_spec rg s t p o : registered rg t o -> ty o = OT_String ->
  result_of (get_string (Some rg) s t p) = Some (match user_text s t p with Some v => (true, Some (map_string o v)) | None => (false, Some (default_string o)) end).
Proof.
  intros H E. unfold get_string. rewrite (typed_ok _ _ _ _ H E). ft. destruct H0 as (<- & _). destruct f; reflexivity.
Qed.
Lemma get_number_spec rg s t p o : registered rg t o -> ty o = OT_Number ->
  result_of (get_number (Some rg) s t p) = match user_text s t p with
     | Some v => match text_number v with Some x => Some (true, Some x) | None => None end
     | None => Some (false, Some (default_number o)) end.
Proof.
  intros H E. unfold get_number. rewrite (typed_ok _ _ _ _ H E). cbn [obind]. ft. destruct H0 as (<- & _). destruct f as [v|]; [|reflexivity].
  destruct (text_number v); reflexivity.
Qed.
Lemma get_integer_spec rg s t p o : registered rg t o -> ty o = OT_Integer ->
  result_of (get_integer (Some rg) s t p) = match user_text s t p with
     | Some v => match text_integer v with Some x => Some (true, Some x) | None => None end
     | None => Some (false, Some (default_integer o)) end.
Proof.
  intros H E. unfold get_integer. rewrite (typed_ok _ _ _ _ H E). cbn [obind]. ft. destruct H0 as (<- & _). destruct f as [v|]; [|reflexivity].
  destruct (text_integer v); reflexivity.
Qed.

Lemma sei_eq a b : string_equal_insensitive a b = true <-> same_ci a b.
Proof.
  unfold same_ci. revert b. induction a as [|x a IH]; destruct b as [|y b]; cbn; try (split; congruence).
  rewrite andb_true_iff, Z.eqb_eq, IH. split; [intros (-> & ->); reflexivity|intros H; injection H as -> ->; auto].
Qed.
Lemma star_lit : star = lit "*".
Proof. reflexivity. Qed.

Lemma valid_string_spec o v : valid_string o v = true <-> string_allowed o v.
Proof.
  unfold valid_string, string_allowed. rewrite existsb_exists. split; intros (e & H1 & H2); exists e; (split; [exact H1|]).
  - apply orb_true_iff in H2. destruct H2 as [H2|H2]; [left; rewrite <- star_lit; apply str_eqb_eq; exact H2|right; apply sei_eq; exact H2].
  - apply orb_true_iff. destruct H2 as [H2|H2]; [left; apply str_eqb_eq; rewrite star_lit; exact H2|right; apply sei_eq; exact H2].
Qed.

Lemma map_string_spec o v : string_allowed o v -> ~ In (lit "*") (valid_strings o) ->
  In (map_string o v) (valid_strings o) /\ same_ci (map_string o v) v.
Proof.
  intros (e & H1 & H2) Hs. unfold map_string.
  assert (G : forall l m, (forall x, In x l -> x <> star) ->
     fold_left (fun m e => if str_eqb e star then v else if string_equal_insensitive e v then e else m) l m = m /\ (forall e, In e l -> ~ same_ci e v) \/
     In (fold_left (fun m e => if str_eqb e star then v else if string_equal_insensitive e v then e else m) l m) l /\
     same_ci (fold_left (fun m e => if str_eqb e star then v else if string_equal_insensitive e v then e else m) l m) v).
  { induction l as [|a l IH]; intros m Hl; [left; split; [reflexivity|intros ? []]|]. cbn [fold_left].
    rewrite (str_eqb_neq a star) by (apply Hl; left; reflexivity).
    destruct (IH (if string_equal_insensitive a v then a else m)) as [(Q1 & Q2)|(Q1 & Q2)].
    - intros x Hx. apply Hl; right; exact Hx.
    - rewrite Q1. destruct (string_equal_insensitive a v) eqn:E.
      + right. split; [left; reflexivity|apply sei_eq; exact E].
      + left. split; [reflexivity|]. intros x [<-|Hx]; [intros Q; apply sei_eq in Q; congruence|apply Q2; exact Hx].
    - right. split; [right; exact Q1|exact Q2]. }
  destruct (G (valid_strings o) []) as [(_ & Q)|Q].
  - intros x Hx ->. apply Hs. exact Hx.
  - exfalso. destruct H2 as [->|H2]; [contradiction|]. exact (Q e H1 H2).
  - exact Q.
Qed.

(** ** Ranges *)
Lemma valid_number_spec o v : bounds_not_nan o -> nnan v = false -> (valid_number o v = true <-> in_range o (key v)).
Proof.
  intros (Hl & Hu) Hv. unfold valid_number, in_range, nge, ngt.
  assert (A : forall x y, nnan x = false -> nnan y = false -> (nle x y = true /\ (key x <= key y)%R) \/ (nle x y = false /\ (key y < key x)%R)).
  { intros x y Hx Hy. destruct (nle x y) eqn:E; [left; split; [reflexivity|]; apply nle_iff in E; tauto|right; split; [reflexivity|]; apply nle_false; assumption]. }
  assert (B : forall x y, nnan x = false -> nnan y = false -> (nlt x y = true /\ (key x < key y)%R) \/ (nlt x y = false /\ (key y <= key x)%R)).
  { intros x y Hx Hy. destruct (nlt x y) eqn:E; [left; split; [reflexivity|]; apply nlt_iff in E; tauto|right; split; [reflexivity|]; apply nlt_false; assumption]. }
  destruct (A v (lower o) Hv Hl) as [(-> & L1)|(-> & L1)], (B v (lower o) Hv Hl) as [(-> & L2)|(-> & L2)],
           (A (upper o) v Hu Hv) as [(-> & L3)|(-> & L3)], (B (upper o) v Hu Hv) as [(-> & L4)|(-> & L4)];
    try (exfalso; lra);
  destruct (has_lower o), (has_upper o), (lower_strict o), (upper_strict o); cbn [andb orb negb]; split; intros H;
    try reflexivity; try discriminate; try (split; intros; try discriminate; lra);
    destruct H as (H1 & H2); try (specialize (H1 eq_refl)); try (specialize (H2 eq_refl)); lra.
Qed.

Definition int32 (z : Z) : Prop := - 2^31 <= z < 2^31.
Lemma valid_integer_spec o v : bounds_not_nan o -> int32 v -> (valid_integer o v = true <-> in_range_int o v).
Proof.
  intros (Hl & Hu) Hv. unfold int32 in Hv. destruct (nofZ_spec v) as (Hf & Hk); [lia|]. apply nfin_nnan in Hf.
  unfold valid_integer, in_range_int, ngt. rewrite <- Hk.
  assert (B : forall x y, nnan x = false -> nnan y = false -> (nlt x y = true /\ (key x < key y)%R) \/ (nlt x y = false /\ (key y <= key x)%R)).
  { intros x y Hx Hy. destruct (nlt x y) eqn:E; [left; split; [reflexivity|]; apply nlt_iff in E; tauto|right; split; [reflexivity|]; apply nlt_false; assumption]. }
  destruct (B (nofZ v) (lower o) Hf Hl) as [(-> & L2)|(-> & L2)], (B (upper o) (nofZ v) Hu Hf) as [(-> & L4)|(-> & L4)];
  destruct (has_lower o), (has_upper o); cbn [andb]; split; intros H;
    try reflexivity; try discriminate; try (split; intros; try discriminate; lra);
    destruct H as (H1 & H2); try (specialize (H1 eq_refl)); try (specialize (H2 eq_refl)); lra.
Qed.

Lemma set_checked_spec rg s t w ok v a d :
  (fst (set_checked (Some rg) s t w ok v a d) = true <-> exists o, registered rg t o /\ ty o = w /\ ok o = true) /\
  (fst (set_checked (Some rg) s t w ok v a d) = false -> snd (set_checked (Some rg) s t w ok v a d) = s).
Proof.
  unfold set_checked. destruct (get_option rg t) as [o|] eqn:E.
  - assert (R : registered rg t o) by (apply get_option_spec; exact E).
    assert (U : forall o', registered rg t o' -> o' = o) by (intros o' H; apply get_option_spec in H; congruence).
    destruct (otype_eqb (ty o) w) eqn:Q; cbn [negb].
    + apply otype_eqb_eq in Q. destruct (ok o) eqn:K; cbn [negb].
      * rewrite finish_set_ret. split; [|discriminate]. split; [intros _; exists o; auto|reflexivity].
      * cbn [fst snd]. split; [|reflexivity]. split; [discriminate|]. intros (o' & H1 & H2 & H3). rewrite (U o' H1) in H3. congruence.
    + cbn [fst snd]. split; [|reflexivity]. split; [discriminate|]. intros (o' & H1 & H2 & _). rewrite (U o' H1) in H2.
      apply otype_eqb_eq in H2. congruence.
  - cbn [fst snd]. split; [|reflexivity]. split; [discriminate|]. intros (o & H & _). apply get_option_spec in H. congruence.
Qed.

(** ** Integers as text *)
Lemma read_digits_digs : forall f n acc a k, 0 <= n < 10 ^ Z.of_nat f ->
  exists j, read_digits a k (digs f n acc) = read_digits (a * 10 ^ Z.of_nat j + n) (k + j) acc /\ (f <> O -> j <> O).
Proof.
  induction f as [|f IH]; intros n acc a k Hn.
  - exists 0%nat. cbn [digs]. change (10 ^ Z.of_nat 0) with 1 in *. split; [|congruence]. f_equal; [lia|lia].
  - cbn [digs]. destruct (Z.ltb_spec n 10).
    + exists 1%nat. split; [|congruence]. cbn [read_digits]. unfold isdigit.
      assert (D : (48 <=? 48 + n) && (48 + n <=? 57) = true) by (apply andb_true_iff; split; apply Z.leb_le; lia). rewrite D.
      change (10 ^ Z.of_nat 1) with 10. f_equal; lia.
    + assert (Hd : 0 <= n / 10 < 10 ^ Z.of_nat f).
      { split; [apply Z.div_pos; lia|]. apply Z.div_lt_upper_bound; [lia|]. rewrite Nat2Z.inj_succ, Z.pow_succ_r in Hn by lia. lia. }
      destruct (IH (n / 10) ((48 + n mod 10) :: acc) a k Hd) as (j & E & Hj). exists (S j). split; [|congruence]. rewrite E.
      cbn [read_digits]. pose proof (Z.mod_pos_bound n 10 ltac:(lia)). unfold isdigit.
      assert (D : (48 <=? 48 + n mod 10) && (48 + n mod 10 <=? 57) = true) by (apply andb_true_iff; split; apply Z.leb_le; lia). rewrite D.
      rewrite Nat2Z.inj_succ, Z.pow_succ_r by lia. f_equal; [|lia]. pose proof (Z.div_mod n 10 ltac:(lia)). lia.
Qed.
Lemma fuel_enough n : 0 <= n -> n < 10 ^ Z.of_nat (S (Z.to_nat (Z.log2 n))).
Proof.
  intros H. destruct (Z.eq_dec n 0) as [->|N]; [reflexivity|].
  pose proof (Z.log2_spec n ltac:(lia)) as (_ & L). pose proof (Z.log2_nonneg n).
  rewrite Nat2Z.inj_succ, Z2Nat.id by lia.
  assert (2 ^ Z.succ (Z.log2 n) <= 10 ^ Z.succ (Z.log2 n)) by (apply Z.pow_le_mono_l; lia). lia.
Qed.
Lemma read_udec n rest : 0 <= n -> (match rest with c :: _ => isdigit c = false | [] => True end) ->
  exists j, read_digits 0 0 (udec n ++ rest) = (n, S j, rest).
Proof.
  intros Hn Hr. unfold udec.
  assert (A : forall f n acc, digs f n acc ++ rest = digs f n (acc ++ rest)).
  { induction f as [|f IH]; intros m acc; [reflexivity|]. cbn [digs]. destruct (m <? 10); [reflexivity|]. rewrite IH. reflexivity. }
  rewrite A. destruct (read_digits_digs (S (Z.to_nat (Z.log2 n))) n ([] ++ rest) 0 0) as (j & E & Hj).
  { split; [exact Hn|apply fuel_enough; exact Hn]. }
  rewrite E. destruct j as [|j]; [specialize (Hj ltac:(discriminate)); congruence|]. exists j. cbn [app].
  assert (R : forall a k, read_digits a k rest = (a, k, rest)).
  { intros a k. destruct rest as [|c rest]; [reflexivity|]. cbn. rewrite Hr. reflexivity. }
  rewrite R. repeat f_equal; lia.
Qed.

Lemma udec_head n : 0 <= n -> exists c l, udec n = c :: l /\ 48 <= c <= 57.
Proof.
  intros Hn. unfold udec. assert (G : forall f n acc, 0 <= n -> exists c l, digs (S f) n acc = c :: l /\ 48 <= c <= 57).
  { induction f as [|f IH]; intros m acc Hm.
    - cbn [digs]. destruct (Z.ltb_spec m 10); eexists _, _; (split; [reflexivity|]); [lia|]. pose proof (Z.mod_pos_bound m 10 ltac:(lia)). lia.
    - cbn [digs]. destruct (Z.ltb_spec m 10); [eexists _, _; (split; [reflexivity|]); lia|]. apply IH. apply Z.div_pos; lia. }
  apply G; exact Hn.
Qed.

Lemma strtol_fmt z rest : LONG_MIN <= z <= LONG_MAX -> (match rest with c :: _ => isdigit c = false | [] => True end) ->
  strtol (fmt_d z ++ rest) = (z, rest).
Proof.
  intros Hz Hr. unfold LONG_MIN, LONG_MAX in Hz. unfold strtol, fmt_d.
  assert (NS : forall c, 48 <= c <= 57 -> isspace c = false).
  { intros c Hc. unfold isspace. destruct (Z.leb_spec 9 c), (Z.leb_spec c 13), (Z.eqb_spec c 32); cbn; try reflexivity; lia. }
  destruct (Z.ltb_spec z 0) as [Hneg|Hpos].
  - change ((45 :: udec (- z)) ++ rest) with (45 :: (udec (- z) ++ rest)). change (skip_space (45 :: (udec (- z) ++ rest))) with (45 :: (udec (- z) ++ rest)).
    cbn [read_sign]. destruct (read_udec (- z) rest ltac:(lia) Hr) as (j & E). rewrite E. f_equal. unfold LONG_MIN, LONG_MAX. lia.
  - destruct (udec_head z Hpos) as (c & l & E & Hc). destruct (read_udec z rest Hpos Hr) as (j & E2).
    assert (S1 : skip_space (udec z ++ rest) = udec z ++ rest).
    { rewrite E. cbn [app skip_space]. rewrite (NS c Hc). reflexivity. }
    rewrite S1. assert (S2 : read_sign (udec z ++ rest) = (false, udec z ++ rest)).
    { rewrite E. cbn [app]. unfold read_sign. 
      destruct c as [|p|p]; try reflexivity; try lia. do 6 (destruct p as [p|p|]; try reflexivity; try lia). }
    rewrite S2, E2. f_equal. unfold LONG_MIN, LONG_MAX. lia.
Qed.

Lemma to_int_id z : int32 z -> to_int z = z.
Proof.
  unfold int32, to_int. intros H. destruct (Z_lt_le_dec z 0).
  - replace (z mod 2 ^ 32) with (z + 2 ^ 32) by (symmetry; rewrite <- (Z_mod_plus_full z 1 (2^32)); rewrite Z.mul_1_l; apply Z.mod_small; lia).
    destruct (Z.ltb_spec (z + 2 ^ 32) (2 ^ 31)); lia.
  - rewrite Z.mod_small by lia. destruct (Z.ltb_spec z (2 ^ 31)); lia.
Qed.
Lemma text_integer_fmt z : int32 z -> text_integer (fmt_d z) = Some z.
Proof.
  intros H. unfold text_integer. pose proof (strtol_fmt z []) as E. rewrite app_nil_r in E. rewrite E; [|unfold int32, LONG_MIN, LONG_MAX in *; lia|exact I].
  cbn [end_ok]. rewrite to_int_id by exact H. reflexivity.
Qed.

Lemma map_enum_from_spec v : forall l k x, (forall e, In e l -> e <> lit "*") ->
  (map_enum_from k l v = Ret x <-> exists j e, x = k + Z.of_nat j /\ nth_error l j = Some e /\ same_ci e v /\
     forall i e', (i < j)%nat -> nth_error l i = Some e' -> ~ same_ci e' v).
Proof.
  induction l as [|a l IH]; intros k x Hs; cbn [map_enum_from].
  - split; [discriminate|]. intros (j & e & _ & H & _). destruct j; discriminate.
  - rewrite (str_eqb_neq a star) by (apply (Hs a); left; reflexivity). destruct (string_equal_insensitive a v) eqn:E.
    + apply sei_eq in E. split.
      * intros H; injection H as <-. exists 0%nat, a. split; [lia|]. split; [reflexivity|]. split; [exact E|]. intros i e' Hi; lia.
      * intros (j & e & -> & H & _ & Hf). destruct j as [|j]; [f_equal; lia|]. exfalso. apply (Hf 0%nat a); [lia|reflexivity|exact E].
    + assert (NE : ~ same_ci a v) by (intros Q; apply sei_eq in Q; congruence).
      rewrite IH by (intros e He; apply Hs; right; exact He). split.
      * intros (j & e & -> & H & H2 & H3). exists (S j), e. split; [lia|]. split; [exact H|]. split; [exact H2|]. intros i e' Hi Hn.
        destruct i as [|i]; [injection Hn as <-; exact NE|]. apply (H3 i e'); [lia|exact Hn].
      * intros (j & e & -> & H & H2 & H3). destruct j as [|j]; [injection H as <-; contradiction|]. exists j, e. split; [lia|]. split; [exact H|].
        split; [exact H2|]. intros i e' Hi Hn. apply (H3 (S i) e'); [lia|exact Hn].
Qed.

Lemma get_enum_spec rg s t p o k : registered rg t o -> ty o = OT_String -> ~ In (lit "*") (valid_strings o) ->
  (exists f, result_of (get_enum (Some rg) s t p) = Some (f, Some k) /\ f = match user_text s t p with Some _ => true | None => false end) <->
  (let v := match user_text s t p with Some v => v | None => default_string o end in
   exists j e, k = Z.of_nat j /\ nth_error (valid_strings o) j = Some e /\ same_ci e v /\ forall i e', (i < j)%nat -> nth_error (valid_strings o) i = Some e' -> ~ same_ci e' v).
Proof.
  intros H E Hs. cbv zeta. unfold get_enum. rewrite (typed_ok _ _ _ _ H E). ft. destruct H0 as (<- & _).
  assert (G : forall v k, map_enum o v = Ret k <-> exists j e, k = Z.of_nat j /\ nth_error (valid_strings o) j = Some e /\ same_ci e v /\
     forall i e', (i < j)%nat -> nth_error (valid_strings o) i = Some e' -> ~ same_ci e' v).
  { intros v k'. unfold map_enum. rewrite map_enum_from_spec by (intros e He ->; contradiction).
    split; intros (j & e & Q1 & Q2); exists j, e; (split; [lia|exact Q2]). }
  destruct f as [v|]; cbn [obind].
  - rewrite <- (G v k). destruct (map_enum o v) as [k'|]; cbn [obind result_of]; split.
    + intros (f & Q & _). injection Q as _ ->. reflexivity.
    + intros Q; injection Q as ->. exists true. auto.
    + intros (f & Q & _). discriminate.
    + discriminate.
  - rewrite <- (G (default_string o) k). destruct (map_enum o (default_string o)) as [k'|]; cbn [obind result_of]; split.
    + intros (f & Q & _). injection Q as _ ->. reflexivity.
    + intros Q; injection Q as ->. exists false. auto.
    + intros (f & Q & _). discriminate.
    + discriminate.
Qed.

Definition bool_text (v : str) : option bool :=
  if in_dec (list_eq_dec Z.eq_dec) v [lit "yes"; lit "true"; lit "on"] then Some true
  else if in_dec (list_eq_dec Z.eq_dec) v [lit "no"; lit "false"; lit "off"] then Some false else None.
Lemma is_one_of_spec v l : is_one_of v l = true <-> In v (map lit l).
Proof.
  unfold is_one_of. rewrite existsb_exists, in_map_iff. split; intros (x & H1 & H2); exists x; split; auto.
  - apply str_eqb_eq in H2; congruence.
  - apply str_eqb_eq; congruence.
Qed.
Lemma get_bool_spec rg s t p o : registered rg t o -> ty o = OT_String ->
  result_of (get_bool (Some rg) s t p) =
  let '(f, v) := match user_text s t p with Some v => (true, map_string o v) | None => (false, default_string o) end in
  match bool_text v with Some b => Some (f, b) | None => None end.
Proof.
  intros H E. unfold get_bool. pose proof (get_string_spec rg s t p o H E) as G.
  destruct (get_string (Some rg) s t p) as [[[f v] s']|]; cbn [result_of] in G; [|discriminate]. cbn [obind].
  assert (B : forall (f : bool) (x : str), @result_of bool bool (if is_one_of x ["no"; "false"; "off"]%string then Ret (f, false, s')
      else if is_one_of x ["yes"; "true"; "on"]%string then Ret (f, true, s') else Throw) = match bool_text x with Some b => Some (f, b) | None => None end).
  { intros g x. unfold bool_text. destruct (is_one_of x ["no"; "false"; "off"]%string) eqn:A.
    - apply is_one_of_spec in A. destruct (in_dec (list_eq_dec Z.eq_dec) x [lit "yes"; lit "true"; lit "on"]) as [I|I].
      + exfalso. cbn [map In] in A, I. intuition (subst; discriminate).
      + destruct (in_dec (list_eq_dec Z.eq_dec) x [lit "no"; lit "false"; lit "off"]) as [J|J]; [reflexivity|]. destruct J; exact A.
    - destruct (is_one_of x ["yes"; "true"; "on"]%string) eqn:B.
      + apply is_one_of_spec in B. destruct (in_dec (list_eq_dec Z.eq_dec) x [lit "yes"; lit "true"; lit "on"]) as [I|I]; [reflexivity|destruct I; exact B].
      + destruct (in_dec (list_eq_dec Z.eq_dec) x [lit "yes"; lit "true"; lit "on"]) as [I|I].
        * assert (Q : is_one_of x ["yes"; "true"; "on"]%string = true) by (apply is_one_of_spec; exact I). congruence.
        * destruct (in_dec (list_eq_dec Z.eq_dec) x [lit "no"; lit "false"; lit "off"]) as [J|J]; [|reflexivity].
          assert (Q : is_one_of x ["no"; "false"; "off"]%string = true) by (apply is_one_of_spec; exact J). congruence. }
  rewrite B. destruct (user_text s t p) as [u|]; injection G as -> ->; reflexivity.
Qed.
