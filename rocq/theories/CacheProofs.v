From Coq Require Import List ZArith Bool Arith Lia.
From Verif Require Import Num CacheModel.
Import ListNotations.

Lemma upd_same {A} (f : nat -> A) k v : upd f k v k = v.
Proof. unfold upd; rewrite Nat.eqb_refl; reflexivity. Qed.
Lemma upd_other {A} (f : nat -> A) k v x : x <> k -> upd f k v x = f x.
Proof. intros H; unfold upd. apply Nat.eqb_neq in H. rewrite H; reflexivity. Qed.

Notation cnt x l := (count_occ Nat.eq_dec l x).

Lemma remove_first_spec x l :
  match remove_first x l with
  | None => cnt x l = 0
  | Some r => S (length r) = length l /\ S (cnt x r) = cnt x l /\ forall y, y <> x -> cnt y r = cnt y l
  end.
Proof.
  induction l as [|a l IH]; [reflexivity|].
  cbn [remove_first]. destruct (Nat.eqb x a) eqn:E.
  - apply Nat.eqb_eq in E; subst a. split; [reflexivity|]. simpl.
    destruct (Nat.eq_dec x x); [|congruence]. split; [reflexivity|].
    intros y Hy. destruct (Nat.eq_dec x y); congruence.
  - apply Nat.eqb_neq in E. destruct (remove_first x l) as [r|]; simpl.
    + destruct IH as (L & C & O). split; [lia|]. destruct (Nat.eq_dec a x); [congruence|]. split; [exact C|].
      intros y Hy. destruct (Nat.eq_dec a y); rewrite O by exact Hy; reflexivity.
    + destruct (Nat.eq_dec a x); [congruence|exact IH].
Qed.

Lemma remove_first_found x l : 0 < cnt x l -> exists r, remove_first x l = Some r.
Proof.
  intros H. pose proof (remove_first_spec x l). destruct (remove_first x l); [eauto|lia].
Qed.

Section P.
Variable T : Type.
Notation st := (st T).
Notation dres := (dres T).
Notation op := (op T).

Definition so (s : st) (sid o : nat) : nat := match subjs T s sid with Some sb => cnt o (observers sb) | None => 0 end.
Definition os (s : st) (o sid : nat) : nat := match obss T s o with Some d => cnt sid (subjects T d) | None => 0 end.
(** Observers and subjects list each other equally often; dead ones are listed by nobody. *)
Definition Sym (s : st) : Prop := forall sid o, so s sid o = os s o sid.

Definition tagof (s : st) (sid : nat) : option Z := option_map tag (subjs T s sid).
Definition tags_eq (s s' : st) : Prop := forall sid, tagof s' sid = tagof s sid.

Definition dsame (d d' : dres) : Prop :=
  result T d' = result T d /\ dtags T d' = dtags T d /\ dscal T d' = dscal T d.

Ltac dbind H :=
  match type of H with
  | bind ?e _ = Ok _ => let E := fresh "E" in destruct e eqn:E; cbn [bind] in H; [|discriminate H|discriminate H]
  end.

(** ** Notification *)
Definition notified (s s' : st) (l : list nat) (sid : nat) (destroyed : bool) : Prop :=
  subjs T s' = subjs T s /\ caches T s' = caches T s /\ uniq T s' = uniq T s /\ nextobs T s' = nextobs T s /\
  forall o, match obss T s o, obss T s' o with
            | None, None => True
            | Some d, Some d' => dsame d d' /\ stale T d' = (stale T d || (0 <? cnt o l)) /\
                (forall x, cnt x (subjects T d') = if destroyed && (x =? sid) then cnt x (subjects T d) - cnt o l
                                                   else cnt x (subjects T d))
            | _, _ => False
            end.

Lemma notify_all_ok sid destroyed : forall l s,
  (forall o, In o l -> cnt o l <= os s o sid) ->
  exists s', notify_all T s l sid destroyed = Ok s' /\ notified s s' l sid destroyed.
Proof.
  induction l as [|o l IH]; intros s H.
  - exists s. split; [reflexivity|]. repeat split; auto. intros o.
    destruct (obss T s o) as [d|]; [|exact I]. repeat split; auto.
    + simpl. rewrite orb_false_r; reflexivity.
    + intros x. destruct (destroyed && (x =? sid)); simpl; lia.
  - assert (Ho : 0 < os s o sid).
    { specialize (H o (or_introl eq_refl)). simpl in H. destruct (Nat.eq_dec o o); [lia|congruence]. }
    unfold os in Ho. destruct (obss T s o) as [d|] eqn:Ed; [|lia].
    cbn [notify_all].
    assert (exists d1, process_notification T s o sid destroyed = Ok (set_obs T s o (Some d1)) /\ dsame d d1 /\ stale T d1 = true /\
       (forall x, cnt x (subjects T d1) = if destroyed && (x =? sid) then cnt x (subjects T d) - 1 else cnt x (subjects T d))) as (d1 & P1 & S1 & St1 & C1).
    { unfold process_notification. rewrite Ed. destruct destroyed.
      - destruct (remove_first_found sid (subjects T d) Ho) as (r & Hr). rewrite Hr.
        eexists. split; [reflexivity|]. repeat split. simpl.
        pose proof (remove_first_spec sid (subjects T d)) as Sp. rewrite Hr in Sp. destruct Sp as (_ & Sp1 & Sp2).
        intros x. destruct (x =? sid) eqn:E; simpl.
        + apply Nat.eqb_eq in E; subst. lia.
        + apply Nat.eqb_neq in E. auto.
      - eexists. split; [reflexivity|]. repeat split. }
    rewrite P1. cbn [bind].
    destruct (IH (set_obs T s o (Some d1))) as (s' & Hs' & N1 & N2 & N3 & N4 & N5).
    { intros o' Ho'. unfold os. simpl. specialize (H o' (or_intror Ho')). simpl in H. unfold os in H.
      destruct (Nat.eq_dec o o') as [<-|Ne].
      - rewrite upd_same. rewrite C1. rewrite Ed in H. rewrite Nat.eqb_refl.
        destruct destroyed; simpl; lia.
      - rewrite upd_other by congruence. exact H. }
    exists s'. split; [exact Hs'|]. repeat split; auto.
    intros o'. specialize (N5 o'). simpl in N5. destruct (Nat.eq_dec o' o) as [->|Ne].
    + rewrite upd_same in N5. rewrite Ed. destruct (obss T s' o) as [d'|]; [|exact N5].
      destruct N5 as ((A1 & A2 & A3) & A4 & A5). destruct S1 as (B1 & B2 & B3). simpl.
      destruct (Nat.eq_dec o o); [|congruence]. repeat split; try congruence.
      * rewrite A4, St1. destruct (stale T d); reflexivity.
      * intros x. rewrite A5, C1. destruct (destroyed && (x =? sid)); lia.
    + rewrite upd_other in N5 by exact Ne. simpl. destruct (Nat.eq_dec o o'); [congruence|]. exact N5.
Qed.

Lemma cnt_In_pos o l : In o l <-> 0 < cnt o l.
Proof. split; [apply count_occ_In|intros H; apply (count_occ_In Nat.eq_dec); exact H]. Qed.


Lemma cnt_0 o l : cnt o l = 0 <-> ~ In o l.
Proof. rewrite cnt_In_pos. lia. Qed.

Definition samesubj (d d' : dres) : Prop := forall x, cnt x (subjects T d') = cnt x (subjects T d).

Lemma Sym_obs s sid sb : Sym s -> subjs T s sid = Some sb -> forall o, cnt o (observers sb) = os s o sid.
Proof. intros H E o. specialize (H sid o). unfold so in H. rewrite E in H. exact H. Qed.

Lemma object_changed_ok s th sid sb : Sym s -> subjs T s sid = Some sb ->
  exists s', object_changed T s th sid = Ok s' /\ Sym s' /\
    caches T s' = caches T s /\ nextobs T s' = nextobs T s /\
    uniq T s' = upd (uniq T s) th ((uniq T s th + 1) mod tag_mod)%Z /\
    (forall x, tagof s' x = if x =? sid then Some (uniq T s th) else tagof s x) /\
    (forall o, match obss T s o, obss T s' o with
       | None, None => True
       | Some d, Some d' => dsame d d' /\ samesubj d d' /\ stale T d' = (stale T d || (0 <? cnt sid (subjects T d)))
       | _, _ => False end).
Proof.
  intros HS E. unfold object_changed. rewrite E.
  set (s2 := set_uniq _ _ _).
  assert (Hos : forall o x, os s2 o x = os s o x) by reflexivity.
  destruct (notify_all_ok sid false (observers sb) s2) as (s' & R & N1 & N2 & N3 & N4 & N5).
  { intros o _. rewrite Hos. rewrite (Sym_obs s sid sb HS E). lia. }
  exists s'. split; [exact R|].
  assert (O5 : forall o, match obss T s o, obss T s' o with
       | None, None => True
       | Some d, Some d' => dsame d d' /\ samesubj d d' /\ stale T d' = (stale T d || (0 <? cnt sid (subjects T d)))
       | _, _ => False end).
  { intros o. specialize (N5 o). change (obss T s2 o) with (obss T s o) in N5.
    pose proof (Sym_obs s sid sb HS E o) as Hc. unfold os in Hc.
    destruct (obss T s o) as [d|]; destruct (obss T s' o) as [d'|]; try exact N5.
    destruct N5 as (A & B & C). split; [exact A|]. split; [exact C|]. rewrite B, Hc. reflexivity. }
  split; [|split; [|split; [|split; [|split]]]].
  - intros x o. unfold so, os. rewrite N1. specialize (HS x o). unfold so, os in HS. specialize (O5 o).
    assert (Hx : match subjs T s2 x with Some sb0 => cnt o (observers sb0) | None => 0 end =
                 match subjs T s x with Some sb0 => cnt o (observers sb0) | None => 0 end).
    { unfold s2, set_uniq, set_subj; cbn [subjs]. unfold upd. destruct (x =? sid) eqn:Ex; [|reflexivity].
      apply Nat.eqb_eq in Ex; subst x. rewrite E. reflexivity. }
    rewrite Hx, HS.
    destruct (obss T s o) as [d|]; destruct (obss T s' o) as [d'|]; try contradiction; [|reflexivity].
    destruct O5 as (_ & O5 & _). symmetry; apply O5.
  - rewrite N2; reflexivity.
  - rewrite N4; reflexivity.
  - rewrite N3; reflexivity.
  - intros x. unfold tagof. rewrite N1. unfold s2, set_uniq, set_subj; cbn [subjs]. unfold upd.
    destruct (x =? sid); reflexivity.
  - exact O5.
Qed.

Lemma destroy_object_ok s sid sb : Sym s -> subjs T s sid = Some sb ->
  exists s', destroy_object T s sid = Ok s' /\ Sym s' /\
    caches T s' = caches T s /\ nextobs T s' = nextobs T s /\ uniq T s' = uniq T s /\
    (forall x, tagof s' x = if x =? sid then None else tagof s x) /\
    (forall o, match obss T s o, obss T s' o with
       | None, None => True
       | Some d, Some d' => dsame d d' /\ stale T d' = (stale T d || (0 <? cnt sid (subjects T d))) /\
           (forall x, x <> sid -> cnt x (subjects T d') = cnt x (subjects T d)) /\
           (forall x, cnt x (subjects T d') <= cnt x (subjects T d))
       | _, _ => False end).
Proof.
  intros HS E. unfold destroy_object. rewrite E.
  destruct (notify_all_ok sid true (observers sb) s) as (s' & R & N1 & N2 & N3 & N4 & N5).
  { intros o _. rewrite (Sym_obs s sid sb HS E). lia. }
  rewrite R. cbn [bind]. exists (set_subj T s' sid None). split; [reflexivity|].
  split; [|split; [|split; [|split; [|split]]]]; auto.
  - intros x o. unfold so, os. cbn [set_subj subjs obss]. specialize (N5 o).
    pose proof (Sym_obs s sid sb HS E o) as Hc. specialize (HS x o). unfold so, os in HS, Hc. unfold upd. rewrite N1.
    destruct (x =? sid) eqn:Ex.
    + apply Nat.eqb_eq in Ex; subst x.
      destruct (obss T s o) as [d|]; destruct (obss T s' o) as [d'|]; try contradiction; [|reflexivity].
      destruct N5 as (_ & _ & C). rewrite C, Nat.eqb_refl. cbn [andb]. lia.
    + rewrite HS.
      destruct (obss T s o) as [d|]; destruct (obss T s' o) as [d'|]; try contradiction; [|reflexivity].
      destruct N5 as (_ & _ & C). rewrite C, Ex. reflexivity.
  - intros x. unfold tagof. cbn [set_subj subjs]. unfold upd. rewrite N1. destruct (x =? sid); reflexivity.
  - intros o. cbn [set_subj obss]. specialize (N5 o).
    pose proof (Sym_obs s sid sb HS E o) as Hc. unfold os in Hc.
    destruct (obss T s o) as [d|]; destruct (obss T s' o) as [d'|]; try exact N5.
    destruct N5 as (A & B & C). split; [exact A|]. split; [rewrite B, Hc; reflexivity|].
    split; [intros x Hx; rewrite C; apply Nat.eqb_neq in Hx; rewrite Hx; reflexivity|].
    intros x. rewrite C. destruct (true && (x =? sid)); lia.
Qed.

(** ** Destroying observers *)
Definition frame (s s' : st) : Prop :=
  tags_eq s s' /\ caches T s' = caches T s /\ uniq T s' = uniq T s /\ nextobs T s' = nextobs T s.
Lemma frame_refl s : frame s s.
Proof. repeat split. Qed.
Lemma frame_trans a b c : frame a b -> frame b c -> frame a c.
Proof.
  intros (A1 & A2 & A3 & A4) (B1 & B2 & B3 & B4). repeat split; try congruence.
Qed.

Lemma request_detach_ok s o sid d : Sym s -> obss T s o = Some d -> In sid (subjects T d) ->
  exists s' d', request_detach T s o sid = Ok s' /\ Sym s' /\ frame s s' /\
    (forall o', o' <> o -> obss T s' o' = obss T s o') /\ obss T s' o = Some d' /\
    S (length (subjects T d')) = length (subjects T d).
Proof.
  intros HS E Hin. unfold request_detach. rewrite E.
  apply cnt_In_pos in Hin. destruct (remove_first_found _ _ Hin) as (r & Hr). rewrite Hr.
  cbn [set_obs subjs].
  pose proof (HS sid o) as H0. unfold so, os in H0. rewrite E in H0.
  destruct (subjs T s sid) as [sb|] eqn:Esb; [|lia].
  destruct (remove_first_found o (observers sb)) as (l & Hl); [lia|]. rewrite Hl.
  pose proof (remove_first_spec sid (subjects T d)) as S1. rewrite Hr in S1. destruct S1 as (L1 & C1 & O1).
  pose proof (remove_first_spec o (observers sb)) as S2. rewrite Hl in S2. destruct S2 as (L2 & C2 & O2).
  eexists. eexists. split; [reflexivity|]. split; [|split; [|split; [|split]]].
  - intros x y. unfold so, os. cbn [set_subj set_obs subjs obss]. unfold upd.
    specialize (HS x y). unfold so, os in HS.
    destruct (x =? sid) eqn:Ex, (y =? o) eqn:Ey; cbn [observers subjects];
      try (apply Nat.eqb_eq in Ex; subst x); try (apply Nat.eqb_eq in Ey; subst y);
      try (apply Nat.eqb_neq in Ex); try (apply Nat.eqb_neq in Ey).
    + lia.
    + rewrite Esb in HS. rewrite O2 by congruence. exact HS.
    + rewrite E in HS. rewrite O1 by congruence. exact HS.
    + exact HS.
  - repeat split. intros x. unfold tagof. cbn [set_subj set_obs subjs]. unfold upd.
    destruct (x =? sid) eqn:Ex; [|reflexivity]. apply Nat.eqb_eq in Ex; subst x. rewrite Esb. reflexivity.
  - intros o' Ho'. cbn [set_subj set_obs obss]. apply upd_other; exact Ho'.
  - cbn [set_subj set_obs obss]. apply upd_same.
  - cbn [subjects]. exact L1.
Qed.

Lemma detach_loop_ok o : forall i s d, Sym s -> obss T s o = Some d -> length (subjects T d) = i ->
  exists s' d', detach_loop T i s o = Ok s' /\ Sym s' /\ frame s s' /\
    (forall o', o' <> o -> obss T s' o' = obss T s o') /\ obss T s' o = Some d' /\ subjects T d' = [].
Proof.
  induction i as [|i IH]; intros s d HS E L.
  - exists s, d. split; [reflexivity|]. repeat split; auto.
    destruct (subjects T d); [reflexivity|discriminate].
  - cbn [detach_loop]. rewrite E.
    destruct (nth_error (subjects T d) i) as [sid|] eqn:En.
    2:{ apply nth_error_None in En. lia. }
    destruct (request_detach_ok s o sid d HS E (nth_error_In _ _ En)) as (s1 & d1 & R1 & S1 & F1 & O1 & E1 & L1).
    rewrite R1. cbn [bind].
    destruct (IH s1 d1 S1 E1) as (s2 & d2 & R2 & S2 & F2 & O2 & E2 & L2); [lia|].
    exists s2, d2. split; [exact R2|]. split; [exact S2|]. split; [eapply frame_trans; eassumption|].
    split; [|split; assumption]. intros o' Ho'. rewrite O2, O1; auto.
Qed.

(** [dest s s' D]: from s to s' exactly the observers in [D] were destroyed. *)
Definition dest (s s' : st) (D : list nat) : Prop :=
  Sym s' /\ frame s s' /\ forall o, obss T s' o = if in_dec Nat.eq_dec o D then None else obss T s o.

Lemma destroy_observer_ok s o d : Sym s -> obss T s o = Some d ->
  exists s', destroy_observer T s o = Ok s' /\ dest s s' [o].
Proof.
  intros HS E. unfold destroy_observer. rewrite E.
  destruct (detach_loop_ok o _ s d HS E eq_refl) as (s1 & d1 & R1 & S1 & F1 & O1 & E1 & L1).
  rewrite R1. cbn [bind]. eexists. split; [reflexivity|]. split; [|split].
  - intros x y. specialize (S1 x y). unfold so, os in *. cbn [set_obs subjs obss]. unfold upd.
    destruct (y =? o) eqn:Ey; [|exact S1]. apply Nat.eqb_eq in Ey; subst y. rewrite S1, E1, L1. reflexivity.
  - eapply frame_trans; [exact F1|]. repeat split.
  - intros y. cbn [set_obs obss]. unfold upd. destruct (in_dec Nat.eq_dec y [o]) as [[<-|[]]|N].
    + rewrite Nat.eqb_refl. reflexivity.
    + destruct (y =? o) eqn:Ey; [apply Nat.eqb_eq in Ey; subst; destruct N; left; reflexivity|].
      apply O1. apply Nat.eqb_neq; exact Ey.
Qed.

Lemma dest_trans a b c D1 D2 : dest a b D1 -> dest b c D2 -> dest a c (D1 ++ D2).
Proof.
  intros (A1 & A2 & A3) (B1 & B2 & B3). split; [exact B1|]. split; [eapply frame_trans; eassumption|].
  intros o. rewrite B3. destruct (in_dec _ o D2), (in_dec _ o (D1 ++ D2)); try reflexivity.
  - destruct n; apply in_or_app; auto.
  - rewrite A3. apply in_app_or in i. destruct i; [|contradiction]. destruct (in_dec _ o D1); [reflexivity|contradiction].
  - rewrite A3. destruct (in_dec _ o D1); [|reflexivity]. destruct n0; apply in_or_app; auto.
Qed.
Lemma dest_refl s : Sym s -> dest s s [].
Proof. intros H. split; [exact H|]. split; [apply frame_refl|]. intros o. destruct (in_dec Nat.eq_dec o []) as [[]|]; reflexivity. Qed.

Definition isstale (s : st) (o : nat) : bool := match obss T s o with Some d => stale T d | None => false end.
Definition alive (s : st) (o : nat) : Prop := exists d, obss T s o = Some d.

Lemma cleanup_ok : forall l s, Sym s -> NoDup l -> (forall o, In o l -> alive s o) ->
  exists s', cleanup T s l = Ok (s', filter (fun o => negb (isstale s o)) l) /\ dest s s' (filter (isstale s) l).
Proof.
  induction l as [|o l IH]; intros s HS ND AL.
  - exists s. split; [reflexivity|]. apply dest_refl; exact HS.
  - inversion ND as [|? ? Nin ND']; subst. destruct (AL o (or_introl eq_refl)) as (d & E).
    cbn [cleanup filter]. 
    assert (Eo : isstale s o = stale T d) by (unfold isstale; rewrite E; reflexivity). rewrite Eo, E. destruct (stale T d) eqn:St; cbn [negb].
    + destruct (destroy_observer_ok s o d HS E) as (s1 & R1 & D1). rewrite R1. cbn [bind].
      assert (Hsame : forall x, In x l -> obss T s1 x = obss T s x).
      { intros x Hx. destruct D1 as (_ & _ & D1). rewrite D1. destruct (in_dec Nat.eq_dec x [o]) as [[->|[]]|]; [contradiction|reflexivity]. }
      destruct (IH s1) as (s2 & R2 & D2); [apply D1|exact ND'| |].
      { intros x Hx. unfold alive. rewrite Hsame by exact Hx. apply AL; right; exact Hx. }
      assert (F1 : filter (fun x => negb (isstale s1 x)) l = filter (fun x => negb (isstale s x)) l).
      { apply filter_ext_in. intros x Hx. unfold isstale. rewrite Hsame by exact Hx. reflexivity. }
      assert (F2 : filter (isstale s1) l = filter (isstale s) l).
      { apply filter_ext_in. intros x Hx. unfold isstale. rewrite Hsame by exact Hx. reflexivity. }
      rewrite F1, F2 in *. exists s2. split; [exact R2|]. apply (dest_trans s s1 s2 [o]); assumption.
    + destruct (IH s HS ND') as (s2 & R2 & D2); [intros x Hx; apply AL; right; exact Hx|].
      rewrite R2. cbn [bind]. exists s2. split; [reflexivity|exact D2].
Qed.

Lemma destroy_all_ok : forall l s, Sym s -> NoDup l -> (forall o, In o l -> alive s o) ->
  exists s', destroy_all T s l = Ok s' /\ dest s s' l.
Proof.
  induction l as [|o l IH]; intros s HS ND AL.
  - exists s. split; [reflexivity|]. apply dest_refl; exact HS.
  - inversion ND as [|? ? Nin ND']; subst. destruct (AL o (or_introl eq_refl)) as (d & E).
    cbn [destroy_all]. destruct (destroy_observer_ok s o d HS E) as (s1 & R1 & D1). rewrite R1. cbn [bind].
    destruct (IH s1) as (s2 & R2 & D2); [apply D1|exact ND'| |].
    { intros x Hx. unfold alive. destruct D1 as (_ & _ & D1). rewrite D1.
      destruct (in_dec Nat.eq_dec x [o]) as [[->|[]]|]; [contradiction|]. apply AL; right; exact Hx. }
    exists s2. split; [exact R2|]. apply (dest_trans s s1 s2 [o]); assumption.
Qed.

(** ** Creating a dependent result *)
Definition somes (l : list (option nat)) : list nat := flat_map (fun d => match d with Some x => [x] | None => [] end) l.
Definition tagval (s : st) (d : option nat) : Z :=
  match d with None => 0%Z | Some sid => match tagof s sid with Some t => t | None => 0%Z end end.

Lemma deps_alive_frame s s' deps : tags_eq s s' -> deps_alive T s' deps = deps_alive T s deps.
Proof.
  intros H. unfold deps_alive. induction deps as [|[x|] deps IH]; cbn [forallb]; [reflexivity| |exact IH].
  rewrite IH. f_equal. unfold dep_alive. specialize (H x). unfold tagof in H.
  destruct (subjs T s' x), (subjs T s x); cbn in H; congruence.
Qed.
Lemma obs_set_same s o v : obss T (set_obs T s o v) o = v.
Proof. apply upd_same. Qed.

Lemma attach_deps_ok o : forall deps s d, Sym s -> obss T s o = Some d -> deps_alive T s deps = true ->
  exists s' d', attach_deps T s o deps = Ok s' /\ Sym s' /\ frame s s' /\
    (forall o', o' <> o -> obss T s' o' = obss T s o') /\ obss T s' o = Some d' /\
    stale T d' = stale T d /\ result T d' = result T d /\ dscal T d' = dscal T d /\
    dtags T d' = dtags T d ++ map (tagval s) deps /\ subjects T d' = subjects T d ++ somes deps.
Proof.
  induction deps as [|dep deps IH]; intros s d HS E AL.
  - exists s, d. split; [reflexivity|]. repeat split; auto; cbn; rewrite app_nil_r; reflexivity.
  - cbn [deps_alive forallb] in AL. apply andb_true_iff in AL. destruct AL as (A1 & A2).
    destruct dep as [sid|]; cbn [attach_deps].
    + unfold request_attach. rewrite E. cbn [set_obs subjs].
      unfold dep_alive in A1. destruct (subjs T s sid) as [sb|] eqn:Esb; [|discriminate].
      cbn [bind set_subj subjs obss]. rewrite upd_same, obs_set_same. cbn [stale result dtags dscal subjects tag].
      match goal with |- context [attach_deps T (set_obs T ?a ?b (Some ?c)) _ _] => set (d2 := c); set (s2 := set_obs T a b (Some d2)) end.
      assert (E2 : obss T s2 o = Some d2) by (unfold s2; cbn [set_obs obss]; apply upd_same).
      assert (F2 : frame s s2).
      { repeat split. intros x. unfold tagof, s2. cbn [set_obs set_subj subjs]. unfold upd.
        destruct (x =? sid) eqn:Ex; [|reflexivity]. apply Nat.eqb_eq in Ex; subst x. rewrite Esb; reflexivity. }
      destruct (IH s2 d2) as (s' & d' & R & S' & F' & O' & E' & G1 & G2 & G3 & G4 & G5); [|exact E2| |].
      * intros x y. unfold so, os, s2. cbn [set_obs set_subj subjs obss]. unfold upd.
        specialize (HS x y). unfold so, os in HS.
        destruct (x =? sid) eqn:Ex, (y =? o) eqn:Ey; cbn [observers subjects d2];
        try (apply Nat.eqb_eq in Ex; subst x); try (apply Nat.eqb_eq in Ey; subst y);
        try (apply Nat.eqb_neq in Ex); try (apply Nat.eqb_neq in Ey); rewrite ?count_occ_app; cbn [count_occ].
        -- rewrite Esb, E in HS.
           destruct (Nat.eq_dec o o); [|congruence]. destruct (Nat.eq_dec sid sid); [|congruence]. lia.
        -- rewrite Esb in HS. destruct (Nat.eq_dec o y); [congruence|]. lia.
        -- rewrite E in HS. destruct (Nat.eq_dec sid x); [congruence|]. lia.
        -- exact HS.
      * rewrite (deps_alive_frame s s2) by apply F2. exact A2.
      * exists s', d'. split; [exact R|]. split; [exact S'|]. split; [eapply frame_trans; eassumption|].
        split; [|split; [exact E'|]].
        { intros o' Ho'. rewrite O' by exact Ho'. unfold s2. cbn [set_obs set_subj obss]. rewrite !upd_other by exact Ho'. reflexivity. }
        unfold d2 in *. cbn [stale result dscal dtags subjects] in *. repeat split; auto.
        -- rewrite G4, <- app_assoc. f_equal. cbn [app map]. f_equal.
           ++ unfold tagval, tagof. rewrite Esb. reflexivity.
           ++ apply map_ext. intros [x|]; [|reflexivity]. unfold tagval. destruct F2 as (F2 & _). rewrite F2. reflexivity.
        -- rewrite G5, <- app_assoc. reflexivity.
    + rewrite E. set (s2 := set_obs T _ _ _). set (d2 := mkDres T _ _ _ _ _) in s2.
      assert (E2 : obss T s2 o = Some d2) by (unfold s2; cbn [set_obs obss]; apply upd_same).
      destruct (IH s2 d2) as (s' & d' & R & S' & F' & O' & E' & G1 & G2 & G3 & G4 & G5); [|exact E2|exact A2|].
      * intros x y. unfold so, os, s2. cbn [set_obs set_subj subjs obss]. unfold upd.
        specialize (HS x y). unfold so, os in HS. destruct (y =? o) eqn:Ey; [|exact HS].
        apply Nat.eqb_eq in Ey; subst y. rewrite E in HS. exact HS.
      * exists s', d'. split; [exact R|]. split; [exact S'|]. split; [eapply frame_trans; [|exact F']; repeat split|].
        split; [|split; [exact E'|]].
        { intros o' Ho'. rewrite O' by exact Ho'. unfold s2. cbn [set_obs set_subj obss]. rewrite !upd_other by exact Ho'. reflexivity. }
        unfold d2 in *. cbn [stale result dscal dtags subjects] in *. repeat split; auto.
        rewrite G4, <- app_assoc. reflexivity.
Qed.

(** ** Structural invariant *)
Definition elist (s : st) (c : nat) : list nat :=
  match caches T s c with Some ca => match entries ca with Some l => l | None => [] end | None => [] end.

Record SInv (s : st) : Prop := mkSInv {
  iSym : Sym s;
  iND : forall c, NoDup (elist s c);
  iAlive : forall c o, In o (elist s c) -> alive s o;
  iDisj : forall c c' o, In o (elist s c) -> In o (elist s c') -> c = c';
  iFresh : forall o, alive s o -> o < nextobs T s;
  iOwned : forall o, alive s o -> exists c, In o (elist s c);
  iCap : forall c ca, caches T s c = Some ca -> (0 <= maxsize ca)%Z -> (Z.of_nat (length (elist s c)) <= maxsize ca)%Z
}.

Definition disturbs (op : op) (c : nat) (subs : list nat) : Prop :=
  match op with
  | OChange _ _ x | ODestroy _ x => In x subs
  | CClear _ c' _ | CDestroy _ c' => c' = c
  | _ => False
  end.

Definition trans (s s' : st) (op : op) : Prop :=
  forall c o d', In o (elist s' c) -> obss T s' o = Some d' -> stale T d' = false ->
   (In o (elist s c) /\ exists d, obss T s o = Some d /\ stale T d = false /\ dsame d d' /\
      (forall x, In x (subjects T d) -> In x (subjects T d') /\ tagof s' x = tagof s x) /\
      ~ disturbs op c (subjects T d))
   \/ (exists deps, op = CAdd T c (result T d') deps (dscal T d') /\ deps_alive T s' deps = true /\
         dtags T d' = map (tagval s') deps /\ subjects T d' = somes deps).

(** A non-stale entry that is not disturbed keeps its data as long as it stays in the list. *)
Definition fwd (s s' : st) (op : op) : Prop :=
  forall c o d, In o (elist s c) -> obss T s o = Some d -> stale T d = false -> ~ disturbs op c (subjects T d) ->
    (forall a b, op <> CInvalidate T c a b) -> In o (elist s' c) ->
    exists d', obss T s' o = Some d' /\ stale T d' = false /\ dsame d d' /\
      (forall x, In x (subjects T d) <-> In x (subjects T d')) /\ (forall x, In x (subjects T d) -> tagof s' x = tagof s x).

Definition fresh_filter (s : st) (l : list nat) : list nat := filter (fun o => negb (isstale s o)) l.
Definition cap_list (m : Z) (l : list nat) : list nat := if (0 <=? m)%Z then firstn (Z.to_nat m) l else l.

(** How the list of cache [c] evolves. *)
Definition lists (s s' : st) (op : op) : Prop :=
  match op with
  | CAdd _ c _ _ _ => (forall ca, caches T s c = Some ca ->
       elist s' c = cap_list (maxsize ca) (nextobs T s :: fresh_filter s (elist s c))) /\
       (In (nextobs T s) (elist s' c) -> exists d, obss T s' (nextobs T s) = Some d /\ stale T d = false) /\
       (forall c', c' <> c -> elist s' c' = elist s c')
  | CGet _ c _ _ | CInvalidate _ c _ _ => elist s' c = fresh_filter s (elist s c) /\ (forall c', c' <> c -> elist s' c' = elist s c')
  | CClear _ c _ | CDestroy _ c => elist s' c = [] /\ (forall c', c' <> c -> elist s' c' = elist s c')
  | CNew _ c _ => elist s c = [] /\ elist s' c = [] /\ (forall c', c' <> c -> elist s' c' = elist s c')
  | _ => forall c, elist s' c = elist s c
  end.
Definition maxof (s : st) (c : nat) : option Z := option_map maxsize (caches T s c).
Definition maxs (s s' : st) (op : op) : Prop :=
  forall c, maxof s' c = match op with
    | CNew _ c' m => if c =? c' then Some m else maxof s c
    | CDestroy _ c' => if c =? c' then None else maxof s c
    | CClear _ c' (Some m) => if c =? c' then Some m else maxof s c
    | _ => maxof s c end.
Definition tags_step (s s' : st) (op : op) : Prop :=
  match op with
  | ONew _ th sid => tagof s sid = None /\ uniq T s' = upd (uniq T s) th ((uniq T s th + 1) mod tag_mod)%Z /\
      (forall x, tagof s' x = if x =? sid then Some (uniq T s th) else tagof s x)
  | OChange _ th sid => tagof s sid <> None /\ uniq T s' = upd (uniq T s) th ((uniq T s th + 1) mod tag_mod)%Z /\
      (forall x, tagof s' x = if x =? sid then Some (uniq T s th) else tagof s x)
  | ODestroy _ sid => tagof s sid <> None /\ uniq T s' = uniq T s /\ (forall x, tagof s' x = if x =? sid then None else tagof s x)
  | _ => uniq T s' = uniq T s /\ tags_eq s s'
  end.

Lemma fresh_filter_In s l o : In o (fresh_filter s l) <-> In o l /\ isstale s o = false.
Proof. unfold fresh_filter. rewrite filter_In, negb_true_iff. reflexivity. Qed.
Lemma filter_len {A} (f : A -> bool) l : length (filter f l) <= length l.
Proof. induction l as [|a l IH]; cbn; [lia|]. destruct (f a); cbn; lia. Qed.
Lemma tagof_alive s x : tagof s x <> None -> exists sb, subjs T s x = Some sb.
Proof. unfold tagof. destruct (subjs T s x); [eauto|intros H; exfalso; apply H; reflexivity]. Qed.
Lemma tagof_dead s x : tagof s x = None -> subjs T s x = None.
Proof. unfold tagof. destruct (subjs T s x); [discriminate|reflexivity]. Qed.
Lemma subj_in_alive s o d x : Sym s -> obss T s o = Some d -> In x (subjects T d) -> exists sb, subjs T s x = Some sb.
Proof.
  intros HS E Hin. apply cnt_In_pos in Hin. specialize (HS x o). unfold so, os in HS. rewrite E in HS.
  destruct (subjs T s x); [eauto|lia].
Qed.

Definition good (s : st) (op : op) (r : res (st * out T)) : Prop :=
  r = BadCall \/ exists s' v, r = Ok (s', v) /\ SInv s' /\ (trans s s' op /\ fwd s s' op) /\ lists s s' op /\ maxs s s' op /\ tags_step s s' op.

(** Object operations: caches untouched, observers only become stale / lose subjects. *)
Lemma obj_step s s' op :
  SInv s -> Sym s' -> caches T s' = caches T s -> nextobs T s' = nextobs T s ->
  (forall o, match obss T s o, obss T s' o with
       | None, None => True
       | Some d, Some d' => dsame d d' /\ (stale T d' = false -> stale T d = false /\
            (forall x, In x (subjects T d) -> In x (subjects T d') /\ tagof s' x = tagof s x) /\
            forall c, ~ disturbs op c (subjects T d)) /\
            (stale T d = false -> (forall c, ~ disturbs op c (subjects T d)) -> stale T d' = false) /\
            (forall x, In x (subjects T d') -> In x (subjects T d))
       | _, _ => False end) ->
  (forall c c' subs, disturbs op c subs -> disturbs op c' subs) ->
  SInv s' /\ (trans s s' op /\ fwd s s' op).
Proof.
  intros I HS HC HN HO HDc.
  assert (EL : forall c, elist s' c = elist s c) by (intros c; unfold elist; rewrite HC; reflexivity).
  assert (AL : forall o, alive s' o <-> alive s o).
  { intros o. unfold alive. specialize (HO o). destruct (obss T s o), (obss T s' o); try contradiction.
    - split; intros _; eauto.
    - split; intros (d & H); discriminate. }
  split.
  - constructor.
    + exact HS.
    + intros c. rewrite EL. apply (iND s I).
    + intros c o. rewrite EL, AL. apply (iAlive s I).
    + intros c c' o. rewrite !EL. apply (iDisj s I).
    + intros o. rewrite AL, HN. apply (iFresh s I).
    + intros o H. apply AL in H. destruct (iOwned s I o H) as (c & Hc). exists c. rewrite EL; exact Hc.
    + intros c ca. rewrite HC, EL. apply (iCap s I).
  - split.
  { intros c o d' Hin E St. rewrite EL in Hin. left. split; [exact Hin|].
    specialize (HO o). rewrite E in HO. destruct (obss T s o) as [d|]; [|contradiction].
    destruct HO as (A & B & _). destruct (B St) as (B1 & B2 & B3). exists d. repeat split; auto; try apply A; apply B2; assumption. }
    intros c o d Hin E St Hd _ _. specialize (HO o). rewrite E in HO. destruct (obss T s' o) as [d'|]; [|contradiction].
    destruct HO as (A & B & C & C'). assert (St' : stale T d' = false).
    { apply C; [exact St|]. intros c' H. apply Hd. eapply HDc; exact H. }
    destruct (B St') as (_ & B2 & _). exists d'. repeat split; auto; try apply A; apply B2; assumption.
Qed.

Lemma orb_pos_false a n : a || (0 <? n) = false -> a = false /\ n = 0.
Proof.
  intros H. apply orb_false_iff in H. destruct H as (A & B). split; [exact A|].
  apply Nat.ltb_ge in B. lia.
Qed.

Lemma step_change s th sid : SInv s -> good s (OChange T th sid) (step T s (OChange T th sid)).
Proof.
  intros I. cbn [step]. destruct (subjs T s sid) as [sb|] eqn:E.
  2:{ left. unfold object_changed. rewrite E. reflexivity. }
  right. destruct (object_changed_ok s th sid sb (iSym s I) E) as (s' & R & S' & C & N & U & TG & O).
  rewrite R. cbn [bind]. exists s'. eexists. split; [reflexivity|].
  destruct (obj_step s s' (OChange T th sid) I S' C N) as (I' & Tr); [|auto|].
  { intros o. specialize (O o). destruct (obss T s o) as [d|]; destruct (obss T s' o) as [d'|]; try exact O.
    destruct O as (A & B & D). split; [exact A|]. split; [|split; [intros Hst Hds; rewrite D, Hst; cbn [orb]; apply Nat.ltb_ge; apply Nat.le_0_r; apply cnt_0; apply (Hds 0)|intros x Hx; apply cnt_In_pos; rewrite <- B; apply cnt_In_pos; exact Hx]]. rewrite D. intros H. apply orb_pos_false in H. destruct H as (H1 & H2).
    split; [exact H1|]. assert (Hs : ~ In sid (subjects T d)) by (apply cnt_0; exact H2).
    split; [|intros c; exact Hs]. intros x Hx. split.
    - apply cnt_In_pos. rewrite B. apply cnt_In_pos; exact Hx.
    - rewrite TG. destruct (x =? sid) eqn:Ex; [apply Nat.eqb_eq in Ex; subst; contradiction|reflexivity]. }
  split; [exact I'|]. split; [exact Tr|]. split; [|split].
  - intros c. unfold elist. rewrite C. reflexivity.
  - intros c. unfold maxof. rewrite C. reflexivity.
  - split; [|split]; auto. unfold tagof. rewrite E. discriminate.
Qed.

Lemma step_new s th sid : SInv s -> good s (ONew T th sid) (step T s (ONew T th sid)).
Proof.
  intros I. cbn [step]. unfold new_object. destruct (subjs T s sid) as [sb|] eqn:E; [left; reflexivity|].
  right. set (s0 := set_subj T s sid (Some (mkSubj 0 []))).
  assert (Hno : forall o, os s o sid = 0).
  { intros o. rewrite <- (iSym s I). unfold so. rewrite E. reflexivity. }
  assert (S0 : Sym s0).
  { intros x o. unfold so, os, s0. cbn [set_subj subjs obss]. unfold upd.
    destruct (x =? sid) eqn:Ex.
    - apply Nat.eqb_eq in Ex; subst. cbn [observers]. symmetry. apply (Hno o).
    - apply (iSym s I). }
  assert (E0 : subjs T s0 sid = Some (mkSubj 0 [])) by (unfold s0; cbn [set_subj subjs]; apply upd_same).
  destruct (object_changed_ok s0 th sid _ S0 E0) as (s' & R & S' & C & N & U & TG & O).
  rewrite R. cbn [bind]. exists s'. eexists. split; [reflexivity|].
  assert (TG' : forall x, tagof s' x = if x =? sid then Some (uniq T s th) else tagof s x).
  { intros x. rewrite TG. destruct (x =? sid) eqn:Ex; [reflexivity|]. unfold tagof, s0. cbn [set_subj subjs].
    unfold upd. rewrite Ex. reflexivity. }
  destruct (obj_step s s' (ONew T th sid) I S' C N) as (I' & Tr); [|auto|].
  { intros o. specialize (O o). change (obss T s0 o) with (obss T s o) in O.
    pose proof (Hno o) as Ho. unfold os in Ho.
    destruct (obss T s o) as [d|] eqn:Ed; destruct (obss T s' o) as [d'|]; try exact O.
    destruct O as (A & B & D). split; [exact A|]. split; [|split; [intros Hst Hds; rewrite D, Hst; cbn [orb]; rewrite Ho; reflexivity|intros x Hx; apply cnt_In_pos; rewrite <- B; apply cnt_In_pos; exact Hx]]. rewrite D. intros H. apply orb_pos_false in H. destruct H as (H1 & H2).
    split; [exact H1|]. assert (Hs : ~ In sid (subjects T d)) by (apply cnt_0; exact H2).
    split; [|intros c; exact (fun H => H)]. intros x Hx. split.
    - apply cnt_In_pos. rewrite B. apply cnt_In_pos; exact Hx.
    - rewrite TG'. destruct (x =? sid) eqn:Ex; [apply Nat.eqb_eq in Ex; subst; contradiction|reflexivity]. }
  split; [exact I'|]. split; [exact Tr|]. split; [|split].
  - intros c. unfold elist. rewrite C. reflexivity.
  - intros c. unfold maxof. rewrite C. reflexivity.
  - split; [|split]; auto. unfold tagof. rewrite E. reflexivity.
Qed.

Lemma step_odestroy s sid : SInv s -> good s (ODestroy T sid) (step T s (ODestroy T sid)).
Proof.
  intros I. cbn [step]. destruct (subjs T s sid) as [sb|] eqn:E.
  2:{ left. unfold destroy_object. rewrite E. reflexivity. }
  right. destruct (destroy_object_ok s sid sb (iSym s I) E) as (s' & R & S' & C & N & U & TG & O).
  rewrite R. cbn [bind]. exists s'. eexists. split; [reflexivity|].
  destruct (obj_step s s' (ODestroy T sid) I S' C N) as (I' & Tr); [|auto|].
  { intros o. specialize (O o). destruct (obss T s o) as [d|]; destruct (obss T s' o) as [d'|]; try exact O.
    destruct O as (A & D & B & B'). split; [exact A|]. split; [|split; [intros Hst Hds; rewrite D, Hst; cbn [orb]; apply Nat.ltb_ge; apply Nat.le_0_r; apply cnt_0; apply (Hds 0)|intros x Hx; apply cnt_In_pos; apply cnt_In_pos in Hx; specialize (B' x); lia]]. rewrite D. intros H. apply orb_pos_false in H. destruct H as (H1 & H2).
    split; [exact H1|]. assert (Hs : ~ In sid (subjects T d)) by (apply cnt_0; exact H2).
    split; [|intros c; exact Hs]. intros x Hx. assert (x <> sid) by (intros ->; contradiction). split.
    - apply cnt_In_pos. rewrite B by assumption. apply cnt_In_pos; exact Hx.
    - rewrite TG. destruct (x =? sid) eqn:Ex; [apply Nat.eqb_eq in Ex; subst; contradiction|reflexivity]. }
  split; [exact I'|]. split; [exact Tr|]. split; [|split].
  - intros c. unfold elist. rewrite C. reflexivity.
  - intros c. unfold maxof. rewrite C. reflexivity.
  - split; [|split]; auto. unfold tagof. rewrite E. discriminate.
Qed.

(** Cache operations that only remove entries [D] of cache [c], leaving [l'] *)
Definition with_cache (s : st) (c : nat) (v : option cache) := set_cache T s c v.
Lemma elist_set s c v c' : elist (set_cache T s c v) c' =
  if c' =? c then match v with Some ca => match entries ca with Some l => l | None => [] end | None => [] end else elist s c'.
Proof. unfold elist. cbn [set_cache caches]. unfold upd. destruct (c' =? c); reflexivity. Qed.
Lemma maxof_set s c v c' : maxof (set_cache T s c v) c' = if c' =? c then option_map maxsize v else maxof s c'.
Proof. unfold maxof. cbn [set_cache caches]. unfold upd. destruct (c' =? c); reflexivity. Qed.
Lemma tagof_set s c v x : tagof (set_cache T s c v) x = tagof s x.
Proof. reflexivity. Qed.
Lemma elist_caches s s' c : caches T s' = caches T s -> elist s' c = elist s c.
Proof. intros H. unfold elist. rewrite H. reflexivity. Qed.

Definition vlist (v : option cache) : list nat :=
  match v with Some ca => match entries ca with Some l => l | None => [] end | None => [] end.

Lemma drop_step s s1 D c v :
  SInv s -> dest s s1 D ->
  (forall o, In o D -> In o (elist s c)) ->
  (forall o, In o (vlist v) <-> In o (elist s c) /\ ~ In o D) -> NoDup (vlist v) ->
  (forall ca, v = Some ca -> (0 <= maxsize ca)%Z -> (Z.of_nat (length (vlist v)) <= maxsize ca)%Z) ->
  SInv (set_cache T s1 c v).
Proof.
  intros I (S1 & F1 & O1) HD HV NDv Cap. destruct F1 as (FT & FC & FU & FN).
  assert (EL : forall c', elist (set_cache T s1 c v) c' = if c' =? c then vlist v else elist s c').
  { intros c'. rewrite elist_set. unfold vlist. destruct (c' =? c); [reflexivity|]. apply elist_caches; exact FC. }
  assert (AL : forall o, alive (set_cache T s1 c v) o <-> alive s o /\ ~ In o D).
  { intros o. unfold alive. cbn [set_cache obss]. rewrite O1. destruct (in_dec Nat.eq_dec o D).
    - split; [intros (d & H); discriminate|intros (_ & H); contradiction].
    - tauto. }
  constructor.
  - exact S1.
  - intros c'. rewrite EL. destruct (c' =? c); [exact NDv|apply (iND s I)].
  - intros c' o. rewrite EL. rewrite AL. destruct (c' =? c) eqn:Ec; intros H.
    + apply HV in H. split; [apply (iAlive s I c); apply H|apply H].
    + apply Nat.eqb_neq in Ec. split; [apply (iAlive s I c'); exact H|]. intros Hd. apply HD in Hd.
      apply Ec. eapply (iDisj s I); eassumption.
  - intros c1 c2 o. rewrite !EL. intros H1 H2.
    assert (A1 : In o (elist s c1)) by (destruct (c1 =? c) eqn:E1; [apply Nat.eqb_eq in E1; subst; apply HV; exact H1|exact H1]).
    assert (A2 : In o (elist s c2)) by (destruct (c2 =? c) eqn:E2; [apply Nat.eqb_eq in E2; subst; apply HV; exact H2|exact H2]).
    eapply (iDisj s I); eassumption.
  - intros o H. apply AL in H. cbn [set_cache nextobs]. rewrite FN. apply (iFresh s I); apply H.
  - intros o H. apply AL in H. destruct H as (H & Hd). destruct (iOwned s I o H) as (c' & Hc'). exists c'. rewrite EL.
    destruct (c' =? c) eqn:Ec; [|exact Hc']. apply Nat.eqb_eq in Ec; subst c'. apply HV. split; assumption.
  - intros c' ca. cbn [set_cache caches]. rewrite EL. unfold upd. destruct (c' =? c) eqn:Ec.
    + intros ->. apply Cap; reflexivity.
    + rewrite FC. intros H1 H2. apply (iCap s I); assumption.
Qed.

(** Transition property for a pure removal. *)
Lemma drop_trans s s1 D c v op :
  dest s s1 D -> (forall o, In o (vlist v) -> In o (elist s c)) ->
  (forall c' subs, disturbs op c' subs -> c' = c /\ vlist v = []) ->
  trans s (set_cache T s1 c v) op.
Proof.
  intros (S1 & F1 & O1) HV Hd c' o d' Hin E St. destruct F1 as (FT & FC & FU & FN).
  rewrite elist_set in Hin. cbn [set_cache obss] in E. rewrite O1 in E.
  destruct (in_dec Nat.eq_dec o D); [discriminate|]. left. split.
  - destruct (c' =? c) eqn:Ec; [apply Nat.eqb_eq in Ec; subst; apply HV; exact Hin|]. rewrite (elist_caches s s1) in Hin by exact FC. exact Hin.
  - exists d'. repeat split; auto.
    + rewrite tagof_set. apply FT.
    + intros Hdis. destruct (Hd _ _ Hdis) as (-> & Hv). rewrite Nat.eqb_refl in Hin. unfold vlist in Hv. rewrite Hv in Hin. exact Hin.
Qed.

Lemma cap_mono s c ca (l : list nat) : SInv s -> caches T s c = Some ca -> length l <= length (elist s c) -> 
  (0 <= maxsize ca)%Z -> (Z.of_nat (length l) <= maxsize ca)%Z.
Proof. intros I E L H. pose proof (iCap s I c ca E H). lia. Qed.

Lemma fresh_filter_drop s l o : In o (fresh_filter s l) <-> In o l /\ ~ In o (filter (isstale s) l).
Proof.
  rewrite fresh_filter_In, filter_In. destruct (isstale s o); intuition congruence.
Qed.
Lemma NoDup_fresh s l : NoDup l -> NoDup (fresh_filter s l).
Proof. apply NoDup_filter. Qed.

(** State after the cleanup phase of a cache operation *)
Lemma cleanup_cache s c ca l : SInv s -> caches T s c = Some ca -> entries ca = Some l ->
  exists s1, cleanup T s l = Ok (s1, fresh_filter s l) /\ dest s s1 (filter (isstale s) l) /\ elist s c = l /\
    let s2 := set_cache T s1 c (Some (mkCache (maxsize ca) (Some (fresh_filter s l)))) in
    SInv s2 /\ (forall o, In o (fresh_filter s l) -> obss T s2 o = obss T s o).
Proof.
  intros I E El. assert (EL : elist s c = l) by (unfold elist; rewrite E, El; reflexivity).
  destruct (cleanup_ok l s (iSym s I)) as (s1 & R & D).
  { rewrite <- EL. apply (iND s I). }
  { intros o Ho. rewrite <- EL in Ho. apply (iAlive s I c); exact Ho. }
  exists s1. split; [exact R|]. split; [exact D|]. split; [exact EL|]. cbn zeta. split.
  - apply (drop_step s s1 (filter (isstale s) l)); auto.
    + intros o Ho. rewrite EL. apply filter_In in Ho. apply Ho.
    + intros o. cbn [vlist entries]. rewrite EL. apply fresh_filter_drop.
    + cbn [vlist entries]. apply NoDup_fresh. rewrite <- EL. apply (iND s I).
    + intros ca' Hca'. injection Hca' as <-. cbn [maxsize vlist entries]. apply (cap_mono s c); auto.
      rewrite EL. apply filter_len.
  - intros o Ho. cbn [set_cache obss]. destruct D as (_ & _ & D). rewrite D.
    apply fresh_filter_drop in Ho. destruct (in_dec Nat.eq_dec o (filter (isstale s) l)); [tauto|reflexivity].
Qed.

Lemma invalidate_SInv s o d : SInv s -> obss T s o = Some d ->
  SInv (set_obs T s o (Some (mkDres T true (result T d) (dtags T d) (dscal T d) (subjects T d)))).
Proof.
  intros I E. set (s' := set_obs T _ _ _).
  assert (AL : forall x, alive s' x <-> alive s x).
  { intros x. unfold alive, s'. cbn [set_obs obss]. unfold upd. destruct (x =? o) eqn:Ex; [|tauto].
    apply Nat.eqb_eq in Ex; subst. rewrite E. split; intros _; eauto. }
  constructor.
  - intros x y. pose proof (iSym s I x y) as H. unfold so, os in *. unfold s'. cbn [set_obs subjs obss]. unfold upd.
    destruct (y =? o) eqn:Ey; [|exact H]. apply Nat.eqb_eq in Ey; subst. rewrite E in H. exact H.
  - apply (iND s I).
  - intros c x Hx. apply AL. apply (iAlive s I c x Hx).
  - apply (iDisj s I).
  - intros x Hx. apply AL in Hx. apply (iFresh s I x Hx).
  - intros x Hx. apply AL in Hx. apply (iOwned s I x Hx).
  - apply (iCap s I).
Qed.

(** ** Lookup *)
Definition matches (s : st) (d : dres) (deps : list (option nat)) (scal : list num) : bool :=
  match dependents_identical T s d deps scal with Ok b => b | _ => false end.

Lemma tags_identical_ok s : forall deps ts, deps_alive T s deps = true -> length deps = length ts ->
  exists b, tags_identical T s deps ts = Ok b /\ (b = true <-> ts = map (tagval s) deps).
Proof.
  induction deps as [|dep deps IH]; intros ts AL L.
  - exists true. split; [reflexivity|]. destruct ts; [cbn; tauto|discriminate].
  - destruct ts as [|t ts]; [discriminate|]. injection L as L.
    cbn [deps_alive forallb] in AL. apply andb_true_iff in AL. destruct AL as (A1 & A2).
    destruct (IH ts A2 L) as (b & R & Hb). cbn [tags_identical map]. destruct dep as [sid|].
    + unfold dep_alive in A1. unfold tagval at 1. unfold tagof at 1.
      destruct (subjs T s sid) as [sb|]; [|discriminate]. cbn [option_map].
      destruct (Z.eqb (tag sb) t) eqn:Et.
      * apply Z.eqb_eq in Et. exists b. split; [exact R|]. rewrite Hb, Et. split; [intros ->; reflexivity|intros H; injection H; auto].
      * apply Z.eqb_neq in Et. exists false. split; [reflexivity|]. split; [discriminate|]. intros H. injection H; intros; congruence.
    + cbn [tagval]. destruct (Z.eqb t 0) eqn:Et.
      * apply Z.eqb_eq in Et. exists b. split; [exact R|]. rewrite Hb, Et. split; [intros ->; reflexivity|intros H; injection H; auto].
      * apply Z.eqb_neq in Et. exists false. split; [reflexivity|]. split; [discriminate|]. intros H. injection H; intros; congruence.
Qed.

Lemma Forall2_len {A B} (R : A -> B -> Prop) l l' : Forall2 R l l' -> length l = length l'.
Proof. induction 1; cbn; congruence. Qed.
Lemma scal_identical_Forall2 : forall a b, length a = length b ->
  (scal_identical a b = true <-> Forall2 (fun x y => neqb x y = true) a b).
Proof.
  induction a as [|x a IH]; intros [|y b] L; try discriminate; cbn [scal_identical].
  - split; [constructor|reflexivity].
  - injection L as L. rewrite andb_true_iff, (IH b L). split.
    + intros (A & B). constructor; assumption.
    + intros H. inversion H; subst. split; assumption.
Qed.

Lemma dependents_identical_ok s d deps scal : deps_alive T s deps = true ->
  exists b, dependents_identical T s d deps scal = Ok b /\
   (b = true <-> dtags T d = map (tagval s) deps /\ Forall2 (fun x y => neqb x y = true) scal (dscal T d)).
Proof.
  intros AL. unfold dependents_identical.
  destruct (Nat.eqb (length deps) (length (dtags T d))) eqn:E1; cbn [negb orb].
  2:{ exists false. split; [reflexivity|]. split; [discriminate|]. intros (H & _). apply Nat.eqb_neq in E1.
      rewrite H, map_length in E1. congruence. }
  destruct (Nat.eqb (length scal) (length (dscal T d))) eqn:E2; cbn [negb].
  2:{ exists false. split; [reflexivity|]. split; [discriminate|]. intros (_ & H). apply Nat.eqb_neq in E2.
      apply Forall2_len in H. congruence. }
  apply Nat.eqb_eq in E1, E2.
  destruct (tags_identical_ok s deps (dtags T d) AL E1) as (b & R & Hb). rewrite R. cbn [bind].
  eexists. split; [reflexivity|]. rewrite andb_true_iff, Hb, scal_identical_Forall2 by exact E2. reflexivity.
Qed.

Lemma find_identical_ok s deps scal : deps_alive T s deps = true -> forall l, (forall o, In o l -> alive s o) ->
  exists f, find_identical T s l deps scal = Ok f /\
   match f with
   | None => forall o d, In o l -> obss T s o = Some d -> matches s d deps scal = false
   | Some o => exists l1 l2 d, l = l1 ++ o :: l2 /\ obss T s o = Some d /\ matches s d deps scal = true /\
        forall o' d', In o' l1 -> obss T s o' = Some d' -> matches s d' deps scal = false
   end.
Proof.
  intros AL. induction l as [|o l IH]; intros Al.
  - exists None. split; [reflexivity|]. intros o d [].
  - cbn [find_identical]. destruct (Al o (or_introl eq_refl)) as (d & E). rewrite E.
    destruct (dependents_identical_ok s d deps scal AL) as (b & R & Hb). rewrite R. cbn [bind].
    destruct b.
    + exists (Some o). split; [reflexivity|]. exists [], l, d. split; [reflexivity|]. split; [exact E|].
      split; [unfold matches; rewrite R; reflexivity|]. intros o' d' [].
    + destruct IH as (f & Rf & Hf); [intros x Hx; apply Al; right; exact Hx|].
      exists f. split; [exact Rf|]. assert (M : matches s d deps scal = false) by (unfold matches; rewrite R; reflexivity).
      destruct f as [o2|].
      * destruct Hf as (l1 & l2 & d2 & -> & E2 & M2 & Hl). exists (o :: l1), l2, d2. repeat split; auto.
        intros o' d' [<-|Hin] E'; [congruence|eapply Hl; eassumption].
      * intros o' d' [<-|Hin] E'; [congruence|eapply Hf; eassumption].
Qed.

Lemma matches_spec s d deps scal : deps_alive T s deps = true ->
  (matches s d deps scal = true <-> dtags T d = map (tagval s) deps /\ Forall2 (fun x y => neqb x y = true) scal (dscal T d)).
Proof.
  intros AL. destruct (dependents_identical_ok s d deps scal AL) as (b & R & Hb).
  unfold matches. rewrite R. exact Hb.
Qed.

(** ** Cache operations *)
Lemma fwd_sub s s' op : SInv s' -> tags_eq s s' -> (forall o d d', obss T s o = Some d -> obss T s' o = Some d' -> d' = d) -> fwd s s' op.
Proof.
  intros I' TE H c o d Hin E St _ _ Hin'. destruct (iAlive s' I' c o Hin') as (d' & E').
  rewrite (H o d d' E E') in E'. exists d. repeat split; auto.
Qed.
Lemma dest_obs s s1 D o d d' : dest s s1 D -> obss T s o = Some d -> obss T s1 o = Some d' -> d' = d.
Proof. intros (_ & _ & H) E E'. rewrite H in E'. destruct (in_dec _ _ _); congruence. Qed.
Lemma trans_same s op : (forall c subs, ~ disturbs op c subs) -> trans s s op.
Proof. intros H c o d Hin E St. left. split; [exact Hin|]. exists d. repeat split; auto. Qed.

Lemma maxs_set s s1 c ca m l op : caches T s c = Some ca -> caches T s1 = caches T s -> m = maxsize ca ->
  match op with CNew _ _ _ | CDestroy _ _ | CClear _ _ _ => False | _ => True end ->
  maxs s (set_cache T s1 c (Some (mkCache m l))) op.
Proof.
  intros E C -> Hop c'. rewrite maxof_set.
  assert (G : (if c' =? c then option_map maxsize (Some (mkCache (maxsize ca) l)) else maxof s1 c') = maxof s c').
  { destruct (c' =? c) eqn:Ec.
    - apply Nat.eqb_eq in Ec; subst. unfold maxof. rewrite E. reflexivity.
    - unfold maxof. rewrite C. reflexivity. }
  rewrite G. destruct op; try contradiction; reflexivity.
Qed.

Lemma trans_comp_obs s s1 op o : trans s s1 op ->
  forall d, obss T s1 o = Some d ->
  trans s (set_obs T s1 o (Some (mkDres T true (result T d) (dtags T d) (dscal T d) (subjects T d)))) op.
Proof.
  intros Tr d E c x d' Hin Ex St. cbn [set_obs obss] in Ex. unfold upd in Ex. destruct (x =? o) eqn:Eo.
  - injection Ex as <-. discriminate.
  - apply (Tr c x d' Hin Ex St).
Qed.

(** After cleanup: what the "cleaned" state s2 of cleanup_cache satisfies for op = get/invalidate. *)
Lemma cleaned s c ca l s1 op : SInv s -> caches T s c = Some ca -> entries ca = Some l -> 
  dest s s1 (filter (isstale s) l) -> (forall c' subs, ~ disturbs op c' subs) ->
  match op with CNew _ _ _ | CDestroy _ _ | CClear _ _ _ => False | _ => True end ->
  let s2 := set_cache T s1 c (Some (mkCache (maxsize ca) (Some (fresh_filter s l)))) in
  trans s s2 op /\ elist s2 c = fresh_filter s (elist s c) /\ (forall c', c' <> c -> elist s2 c' = elist s c') /\
  maxs s s2 op /\ uniq T s2 = uniq T s /\ tags_eq s s2.
Proof.
  intros I E El D Hd Hop2 s2. assert (EL : elist s c = l) by (unfold elist; rewrite E, El; reflexivity).
  split; [|split; [|split; [|split]]].
  - apply (drop_trans s s1 (filter (isstale s) l)); auto.
    + intros o. cbn [vlist entries]. rewrite fresh_filter_In, EL. tauto.
    + intros c' subs H. destruct (Hd _ _ H).
  - unfold s2. rewrite elist_set, Nat.eqb_refl, EL. reflexivity.
  - intros c' Hc'. unfold s2. rewrite elist_set. apply Nat.eqb_neq in Hc'. rewrite Hc'.
    apply elist_caches. apply D.
  - apply (maxs_set s s1 c ca); auto. apply D.
  - destruct D as (_ & (FT & _ & FU & _) & _). split; [exact FU|exact FT].
Qed.

Lemma step_get s c deps scal : SInv s -> good s (CGet T c deps scal) (step T s (CGet T c deps scal)).
Proof.
  intros I. cbn [step]. destruct (deps_alive T s deps) eqn:AL; [|left; reflexivity].
  unfold cache_get. destruct (caches T s c) as [ca|] eqn:E; [|left; reflexivity]. right.
  destruct (entries ca) as [l|] eqn:El.
  - destruct (cleanup_cache s c ca l I E El) as (s1 & R & D & EL & I2 & O2). rewrite R. cbn [bind].
    set (s2 := set_cache T s1 c _) in *.
    destruct (cleaned s c ca l s1 (CGet T c deps scal) I E El D) as (Tr & L1 & L2 & M & U & TE); [intros ? ? []|exact Logic.I|].
    fold s2 in Tr, L1, L2, M, U, TE.
    assert (AL2 : deps_alive T s2 deps = true) by (rewrite (deps_alive_frame s s2); auto).
    destruct (find_identical_ok s2 deps scal AL2 (fresh_filter s l)) as (f & Rf & Hf).
    { intros o Ho. apply (iAlive s2 I2 c). rewrite L1, EL. exact Ho. }
    rewrite Rf. cbn [bind]. destruct f as [o|].
    + destruct Hf as (l1 & l2 & d & _ & Ed & _). rewrite Ed. cbn [bind].
      exists s2. eexists. split; [reflexivity|]. split; [exact I2|]. split; [split; [exact Tr|]|repeat split; auto].
      apply fwd_sub; [exact I2|exact TE|]. intros x dx dx' H1 H2. eapply dest_obs; eassumption.
    + cbn [bind]. exists s2. eexists. split; [reflexivity|]. split; [exact I2|]. split; [split; [exact Tr|]|repeat split; auto].
      apply fwd_sub; [exact I2|exact TE|]. intros x dx dx' H1 H2. eapply dest_obs; eassumption.
  - cbn [bind]. exists s. eexists. split; [reflexivity|]. split; [exact I|].
    split; [split; [apply trans_same; intros ? ? []|apply fwd_sub; [exact I|intros ?; reflexivity|congruence]]|].
    split; [|split; [|split]]; try (intros ?; reflexivity).
    split; [|reflexivity]. assert (EL : elist s c = []) by (unfold elist; rewrite E, El; reflexivity). rewrite EL. reflexivity.
    reflexivity.
Qed.

Lemma step_invalidate s c deps scal : SInv s -> good s (CInvalidate T c deps scal) (step T s (CInvalidate T c deps scal)).
Proof.
  intros I. cbn [step]. destruct (deps_alive T s deps) eqn:AL; [|left; reflexivity].
  unfold cache_invalidate. destruct (caches T s c) as [ca|] eqn:E; [|left; reflexivity]. right.
  destruct (entries ca) as [l|] eqn:El.
  - destruct (cleanup_cache s c ca l I E El) as (s1 & R & D & EL & I2 & O2). rewrite R. cbn [bind].
    set (s2 := set_cache T s1 c _) in *.
    destruct (cleaned s c ca l s1 (CInvalidate T c deps scal) I E El D) as (Tr & L1 & L2 & M & U & TE); [intros ? ? []|exact Logic.I|].
    fold s2 in Tr, L1, L2, M, U, TE.
    assert (AL2 : deps_alive T s2 deps = true) by (rewrite (deps_alive_frame s s2); auto).
    destruct (find_identical_ok s2 deps scal AL2 (fresh_filter s l)) as (f & Rf & Hf).
    { intros o Ho. apply (iAlive s2 I2 c). rewrite L1, EL. exact Ho. }
    rewrite Rf. cbn [bind]. destruct f as [o|].
    + destruct Hf as (l1 & l2 & d & Hl12 & Ed & _). unfold invalidate. rewrite Ed. cbn [bind].
      eexists. eexists. split; [reflexivity|]. split; [apply invalidate_SInv; assumption|].
      split; [split; [apply trans_comp_obs; assumption|]|repeat split; auto].
      intros c0 x dx Hin Ex St _ Hop Hin'. assert (c0 <> c) by (intros ->; apply (Hop deps scal); reflexivity).
      assert (Hx : x <> o).
      { intros ->. apply H. apply (iDisj s I c0 c o Hin). rewrite EL.
        assert (Ho : In o (fresh_filter s l)) by (rewrite Hl12; apply in_or_app; right; left; reflexivity).
        apply fresh_filter_In in Ho. apply Ho. }
      change (In x (elist s2 c0)) in Hin'. destruct (iAlive s2 I2 c0 x Hin') as (d' & E').
      exists d'. cbn [set_obs obss]. rewrite upd_other by exact Hx.
      assert (d' = dx) as -> by (eapply dest_obs; eassumption). repeat split; auto. intros y _. apply TE.
    + cbn [bind]. exists s2. eexists. split; [reflexivity|]. split; [exact I2|]. split; [split; [exact Tr|]|repeat split; auto].
      apply fwd_sub; [exact I2|exact TE|]. intros x dx dx' H1 H2. eapply dest_obs; eassumption.
  - cbn [bind]. exists s. eexists. split; [reflexivity|]. split; [exact I|].
    split; [split; [apply trans_same; intros ? ? []|apply fwd_sub; [exact I|intros ?; reflexivity|congruence]]|].
    split; [|split; [|split]]; try (intros ?; reflexivity).
    split; [|reflexivity]. assert (EL : elist s c = []) by (unfold elist; rewrite E, El; reflexivity). rewrite EL. reflexivity.
    reflexivity.
Qed.

Lemma invalidate_all_ok c : forall l s, SInv s -> (forall o, In o l -> In o (elist s c)) ->
  exists s', invalidate_all T s l = Ok s' /\ SInv s' /\ frame s s' /\ subjs T s' = subjs T s /\
    (forall o, In o l -> isstale s' o = true) /\ (forall o, isstale s o = true -> isstale s' o = true) /\
    (forall o, ~ In o l -> obss T s' o = obss T s o) /\ (forall o, alive s' o <-> alive s o).
Proof.
  induction l as [|o l IH]; intros s I Hl.
  - exists s. split; [reflexivity|]. repeat split; auto; apply I || contradiction.
  - cbn [invalidate_all]. unfold invalidate. destruct (iAlive s I c o (Hl o (or_introl eq_refl))) as (d & E). rewrite E. cbn [bind].
    set (s1 := set_obs T _ _ _). assert (I1 : SInv s1) by (apply invalidate_SInv; assumption).
    destruct (IH s1 I1) as (s2 & R & I2 & F2 & Sb2 & A & B & C & Dl); [intros x Hx; apply Hl; right; exact Hx|].
    assert (St : isstale s1 o = true) by (unfold isstale, s1; rewrite obs_set_same; reflexivity).
    assert (Oth : forall x, x <> o -> obss T s1 x = obss T s x) by (intros x Hx; unfold s1; cbn [set_obs obss]; apply upd_other; exact Hx).
    exists s2. split; [exact R|]. split; [exact I2|]. split; [eapply frame_trans; [|exact F2]; repeat split|].
    split; [exact Sb2|]. split; [|split; [|split]].
    + intros x [<-|Hx]; [apply B; exact St|apply A; exact Hx].
    + intros x Hx. apply B. destruct (Nat.eq_dec x o) as [->|Ne]; [exact St|]. unfold isstale. rewrite Oth by exact Ne. exact Hx.
    + intros x Hx. rewrite C by (intros H; apply Hx; right; exact H). apply Oth. intros ->. apply Hx; left; reflexivity.
    + intros x. rewrite Dl. unfold alive. destruct (Nat.eq_dec x o) as [->|Ne]; [|rewrite Oth by exact Ne; tauto].
      unfold s1. rewrite obs_set_same, E. split; intros _; eauto.
Qed.

Lemma good_split (A B C D E F : Prop) : (A /\ B /\ D /\ E /\ F) -> (A -> C) -> (A /\ (B /\ C) /\ D /\ E /\ F).
Proof. tauto. Qed.

Lemma step_clear s c m : SInv s -> good s (CClear T c m) (step T s (CClear T c m)).
Proof.
  intros I. cbn [step]. unfold cache_clear. destruct (caches T s c) as [ca|] eqn:E; [|left; reflexivity]. right.
  set (mm := match m with None => maxsize ca | Some m => m end).
  assert (MX : forall s1 l, caches T s1 = caches T s -> maxs s (set_cache T s1 c (Some (mkCache mm l))) (CClear T c m)).
  { intros s1 l C c'. rewrite maxof_set. cbn [option_map maxsize]. destruct (c' =? c) eqn:Ec.
    - apply Nat.eqb_eq in Ec; subst c'. unfold mm. destruct m; [reflexivity|]. unfold maxof. rewrite E. reflexivity.
    - unfold maxof. rewrite C. destruct m; reflexivity. }
  destruct (entries ca) as [l|] eqn:El.
  - assert (EL : elist s c = l) by (unfold elist; rewrite E, El; reflexivity).
    destruct (invalidate_all_ok c l s I) as (s1 & R1 & I1 & F1 & Sb1 & A & B & C & AL1); [rewrite EL; auto|].
    rewrite R1. cbn [bind].
    assert (EL1 : elist s1 c = l) by (rewrite (elist_caches s s1); [exact EL|apply F1]).
    destruct (cleanup_ok l s1 (iSym s1 I1)) as (s2 & R2 & D2).
    { rewrite <- EL1. apply (iND s1 I1). } { intros o Ho. rewrite <- EL1 in Ho. apply (iAlive s1 I1 c); exact Ho. }
    rewrite R2. cbn [bind].
    assert (N1 : filter (fun o => negb (isstale s1 o)) l = []).
    { destruct (filter (fun o => negb (isstale s1 o)) l) as [|x r] eqn:Ef; [reflexivity|].
      assert (Hx : In x (filter (fun o => negb (isstale s1 o)) l)) by (rewrite Ef; left; reflexivity).
      apply filter_In in Hx. destruct Hx as (Hx & Hn). rewrite (A x Hx) in Hn. discriminate. }
    assert (N2 : filter (isstale s1) l = l).
    { clear -A. induction l as [|x l IH]; [reflexivity|]. cbn [filter]. rewrite (A x (or_introl eq_refl)). f_equal.
      apply IH. intros o Ho; apply A; right; exact Ho. }
    rewrite N1. rewrite N2 in D2. eexists. eexists. split; [reflexivity|].
    assert (Tend : tags_eq s s2) by (intros x; destruct D2 as (_ & (T2 & _) & _); rewrite T2; apply F1).
    apply good_split; [|intros Iend; apply fwd_sub; [exact Iend|exact Tend|]; intros x dx dx' H1 H2; cbn [set_cache obss] in H2; destruct D2 as (_ & _ & D2); rewrite D2 in H2; destruct (in_dec _ _ _); [discriminate|]; rewrite C in H2 by assumption; congruence].
    split; [|split; [|split; [|split]]].
    + apply (drop_step s1 s2 l c _ I1 D2).
      * intros o Ho. rewrite EL1. exact Ho.
      * intros o. cbn [vlist entries]. rewrite EL1. split; [intros []|tauto].
      * constructor.
      * intros ca' Hca' Hm. cbn [vlist entries length]. lia.
    + intros c' o d' Hin Eo St. rewrite elist_set in Hin. cbn [entries] in Hin.
      destruct (c' =? c) eqn:Ec; [contradiction|]. apply Nat.eqb_neq in Ec.
      assert (C2 : caches T s2 = caches T s) by (destruct D2 as (_ & (_ & -> & _) & _); apply F1).
      rewrite (elist_caches s s2) in Hin by exact C2.
      assert (Nin : ~ In o l) by (intros H; apply Ec; rewrite <- EL in H; eapply (iDisj s I); eassumption).
      cbn [set_cache obss] in Eo. destruct D2 as (_ & (T2 & _) & D2). rewrite D2 in Eo.
      destruct (in_dec Nat.eq_dec o l); [contradiction|]. rewrite C in Eo by exact Nin.
      left. split; [exact Hin|]. exists d'. split; [exact Eo|]. split; [exact St|]. split; [repeat split|]. split.
      * intros x Hx. split; [exact Hx|]. rewrite tagof_set, T2. apply F1.
      * cbn [disturbs]. congruence.
    + split; [rewrite elist_set, Nat.eqb_refl; reflexivity|]. intros c' Hc'. rewrite elist_set. apply Nat.eqb_neq in Hc'. rewrite Hc'.
      apply elist_caches. destruct D2 as (_ & (_ & -> & _) & _). apply F1.
    + apply MX. destruct D2 as (_ & (_ & -> & _) & _). apply F1.
    + split; [destruct D2 as (_ & (_ & _ & U2 & _) & _); cbn [set_cache uniq]; rewrite U2; apply F1|].
      intros x. rewrite tagof_set. destruct D2 as (_ & (T2 & _) & _). rewrite T2. apply F1.
  - assert (EL : elist s c = []) by (unfold elist; rewrite E, El; reflexivity).
    cbn [bind]. eexists. eexists. split; [reflexivity|].
    apply good_split; [|intros Iend; apply fwd_sub; [exact Iend|intros ?; reflexivity|cbn [set_cache obss]; congruence]].
    split; [|split; [|split; [|split]]].
    + apply (drop_step s s []); [exact I| | | | |].
      * apply dest_refl; apply I.
      * intros o [].
      * intros o. cbn [vlist entries]. rewrite EL. cbn; tauto.
      * constructor.
      * intros ca' Hca' Hm. cbn [vlist entries length]. lia.
    + apply (drop_trans s s []); [apply dest_refl; apply I|cbn; tauto|]. intros c' subs Hd. cbn in Hd. subst c'. split; reflexivity.
    + split; [rewrite elist_set, Nat.eqb_refl; reflexivity|]. intros c' Hc'. rewrite elist_set. apply Nat.eqb_neq in Hc'. rewrite Hc'. reflexivity.
    + apply MX. reflexivity.
    + split; [reflexivity|]. intros x. reflexivity.
Qed.

Lemma step_cnew s c m : SInv s -> good s (CNew T c m) (step T s (CNew T c m)).
Proof.
  intros I. cbn [step]. unfold cache_new. destruct (caches T s c) as [ca|] eqn:E; [left; reflexivity|]. right.
  assert (EL : elist s c = []) by (unfold elist; rewrite E; reflexivity).
  cbn [bind]. eexists. eexists. split; [reflexivity|].
  apply good_split; [|intros Iend; apply fwd_sub; [exact Iend|intros ?; reflexivity|cbn [set_cache obss]; congruence]].
  split; [|split; [|split; [|split]]].
  - apply (drop_step s s []); [exact I| | | | |].
    + apply dest_refl; apply I.
    + intros o [].
    + intros o. cbn [vlist entries]. rewrite EL. cbn; tauto.
    + constructor.
    + intros ca' Hca' Hm. cbn [vlist entries length]. lia.
  - apply (drop_trans s s []); [apply dest_refl; apply I|cbn; tauto|]. intros c' subs [].
  - split; [exact EL|]. split; [rewrite elist_set, Nat.eqb_refl; reflexivity|]. intros c' Hc'. rewrite elist_set. apply Nat.eqb_neq in Hc'. rewrite Hc'. reflexivity.
  - intros c'. rewrite maxof_set. reflexivity.
  - split; [reflexivity|]. intros x. reflexivity.
Qed.

Lemma step_cdestroy s c : SInv s -> good s (CDestroy T c) (step T s (CDestroy T c)).
Proof.
  intros I. cbn [step]. unfold cache_destroy. destruct (caches T s c) as [ca|] eqn:E; [|left; reflexivity]. right.
  assert (exists s1, match entries ca with None => Ok s | Some l => destroy_all T s l end = Ok s1 /\ dest s s1 (elist s c)) as (s1 & R & D).
  { unfold elist. rewrite E. destruct (entries ca) as [l|] eqn:El.
    - assert (EL : elist s c = l) by (unfold elist; rewrite E, El; reflexivity).
      apply destroy_all_ok; [apply I|rewrite <- EL; apply (iND s I)|].
      intros o Ho. rewrite <- EL in Ho. apply (iAlive s I c); exact Ho.
    - exists s. split; [reflexivity|]. apply dest_refl; apply I. }
  rewrite R. cbn [bind]. eexists. eexists. split; [reflexivity|].
  apply good_split; [|intros Iend; apply fwd_sub; [exact Iend|apply D|intros x dx dx' H1 H2; eapply dest_obs; eassumption]].
  split; [|split; [|split; [|split]]].
  - apply (drop_step s s1 (elist s c) c _ I D); [auto| | |].
    + intros o. cbn [vlist]. cbn; tauto.
    + constructor.
    + intros ca' Hca'; discriminate.
  - apply (drop_trans s s1 (elist s c)); [exact D|cbn; tauto|]. intros c' subs Hd. cbn in Hd. subst c'. split; reflexivity.
  - split; [rewrite elist_set, Nat.eqb_refl; reflexivity|]. intros c' Hc'. rewrite elist_set. apply Nat.eqb_neq in Hc'. rewrite Hc'.
    apply elist_caches; apply D.
  - intros c'. rewrite maxof_set. cbn [option_map]. destruct (c' =? c); [reflexivity|]. unfold maxof. f_equal.
    destruct D as (_ & (_ & -> & _) & _). reflexivity.
  - split; [apply D|]. intros x. rewrite tagof_set. apply D.
Qed.

Lemma step_gettag s sid : SInv s -> good s (OGetTag T sid) (step T s (OGetTag T sid)).
Proof.
  intros I. cbn [step]. destruct (subjs T s sid) as [sb|]; [|left; reflexivity]. right.
  exists s. eexists. split; [reflexivity|]. split; [exact I|].
    split; [split; [apply trans_same; intros ? ? []|apply fwd_sub; [exact I|intros ?; reflexivity|congruence]]|].
  repeat split.
Qed.

(** *** Adding *)
Lemma new_dres_ok s r deps scal : Sym s -> obss T s (nextobs T s) = None -> deps_alive T s deps = true ->
  exists s' d', new_dres T s r deps scal = Ok (s', nextobs T s) /\ Sym s' /\ tags_eq s s' /\
   caches T s' = caches T s /\ uniq T s' = uniq T s /\ nextobs T s' = S (nextobs T s) /\
   (forall x, x <> nextobs T s -> obss T s' x = obss T s x) /\ obss T s' (nextobs T s) = Some d' /\
   stale T d' = false /\ result T d' = r /\ dscal T d' = scal /\ dtags T d' = map (tagval s) deps /\ subjects T d' = somes deps.
Proof.
  intros HS Hf AL. unfold new_dres. set (s1 := mkSt _ _ _ _ _ _). set (o := nextobs T s) in *.
  assert (S1 : Sym s1).
  { intros x y. specialize (HS x y). unfold so, os in *. unfold s1. cbn [subjs obss]. unfold upd.
    destruct (y =? o) eqn:Ey; [|exact HS]. apply Nat.eqb_eq in Ey; subst y. rewrite Hf in HS. exact HS. }
  assert (E1 : obss T s1 o = Some (mkDres T false r [] scal [])) by (unfold s1; cbn [obss]; apply upd_same).
  destruct (attach_deps_ok o deps s1 _ S1 E1 AL) as (s2 & d2 & R & S2 & (F1 & F2 & F3 & F4) & O2 & E2 & G1 & G2 & G3 & G4 & G5).
  rewrite R. cbn [bind]. exists s2, d2. split; [reflexivity|]. repeat split; auto.
  intros x Hx. rewrite O2 by exact Hx. unfold s1. cbn [obss]. apply upd_other; exact Hx.
Qed.

Lemma final_SInv s s3 c m l' :
  SInv s -> Sym s3 -> caches T s3 = caches T s -> nextobs T s3 = S (nextobs T s) ->
  (forall x, alive s3 x <-> (x = nextobs T s /\ In x l') \/ (x <> nextobs T s /\ alive s x /\ (In x (elist s c) -> In x l'))) ->
  NoDup l' -> (forall x, In x l' -> x = nextobs T s \/ In x (elist s c)) ->
  ((0 <= m)%Z -> (Z.of_nat (length l') <= m)%Z) ->
  SInv (set_cache T s3 c (Some (mkCache m (Some l')))).
Proof.
  intros I S3 C3 N3 AL ND HL Cap.
  assert (FR : forall c' x, In x (elist s c') -> x <> nextobs T s).
  { intros c' x Hx. pose proof (iFresh s I x (iAlive s I c' x Hx)). lia. }
  assert (EL : forall c', elist (set_cache T s3 c (Some (mkCache m (Some l')))) c' = if c' =? c then l' else elist s c').
  { intros c'. rewrite elist_set. destruct (c' =? c); [reflexivity|]. apply elist_caches; exact C3. }
  constructor.
  - exact S3.
  - intros c'. rewrite EL. destruct (c' =? c); [exact ND|apply (iND s I)].
  - intros c' x. rewrite EL. change (alive (set_cache T s3 c (Some (mkCache m (Some l')))) x) with (alive s3 x). rewrite AL.
    destruct (c' =? c) eqn:Ec; intros H.
    + destruct (HL x H) as [->|H2]; [left; split; auto|right]. split; [eapply FR; exact H2|]. split; [apply (iAlive s I c); exact H2|auto].
    + right. split; [eapply FR; exact H|]. split; [apply (iAlive s I c'); exact H|]. intros H2. apply Nat.eqb_neq in Ec.
      destruct Ec. eapply (iDisj s I); eassumption.
  - intros c1 c2 x. rewrite !EL. intros H1 H2.
    destruct (c1 =? c) eqn:E1, (c2 =? c) eqn:E2; try (apply Nat.eqb_eq in E1); try (apply Nat.eqb_eq in E2); subst; auto.
    + destruct (HL x H1) as [->|H3]; [destruct (FR c2 _ H2); reflexivity|eapply (iDisj s I); eassumption].
    + destruct (HL x H2) as [->|H3]; [destruct (FR c1 _ H1); reflexivity|eapply (iDisj s I); eassumption].
    + eapply (iDisj s I); eassumption.
  - intros x H. change (alive s3 x) in H. cbn [set_cache nextobs]. rewrite N3. apply AL in H.
    destruct H as [(-> & _)|(_ & H & _)]; [lia|]. pose proof (iFresh s I x H). lia.
  - intros x H. change (alive s3 x) in H. apply AL in H. destruct H as [(-> & H)|(Ne & H & H2)].
    + exists c. rewrite EL, Nat.eqb_refl. exact H.
    + destruct (iOwned s I x H) as (c' & Hc'). exists c'. rewrite EL. destruct (c' =? c) eqn:Ec; [|exact Hc'].
      apply Nat.eqb_eq in Ec; subst. auto.
  - intros c' ca. cbn [set_cache caches]. rewrite EL. unfold upd. destruct (c' =? c).
    + intros H. injection H as <-. exact Cap.
    + rewrite C3. apply (iCap s I).
Qed.

Lemma firstn_removelast {A} (l : list A) n : length l = S n -> firstn n l = removelast l.
Proof.
  revert l. induction n as [|n IH]; intros [|a [|b l]] H; try discriminate; try reflexivity.
  cbn [firstn]. cbn [removelast]. f_equal. apply IH. cbn in *. congruence.
Qed.
Lemma rev_cons_removelast {A} (l : list A) b rl : rev l = b :: rl -> rev rl = removelast l /\ l = removelast l ++ [b].
Proof.
  intros H. assert (l = rev rl ++ [b]) by (rewrite <- (rev_involutive l), H; reflexivity).
  subst l. rewrite removelast_last. split; reflexivity.
Qed.

Lemma step_add s c r deps scal : SInv s -> good s (CAdd T c r deps scal) (step T s (CAdd T c r deps scal)).
Proof.
  intros I. cbn [step]. destruct (deps_alive T s deps) eqn:AL; [|left; reflexivity].
  unfold cache_add. destruct (caches T s c) as [ca|] eqn:E; [|left; reflexivity]. right.
  assert (exists s1, match entries ca with None => Ok (s, []) | Some l => cleanup T s l end = Ok (s1, fresh_filter s (elist s c)) /\
            dest s s1 (filter (isstale s) (elist s c))) as (s1 & R1 & D1).
  { unfold elist. rewrite E. destruct (entries ca) as [l|] eqn:El.
    - destruct (cleanup_cache s c ca l I E El) as (s1 & R & D & _). exists s1. split; assumption.
    - exists s. split; [reflexivity|]. cbn [filter]. apply dest_refl; apply I. }
  rewrite R1. cbn [bind]. set (l1 := fresh_filter s (elist s c)) in *.
  destruct D1 as (S1 & (T1 & C1 & U1 & N1) & O1).
  assert (Hf1 : obss T s1 (nextobs T s1) = None).
  { rewrite O1, N1. destruct (in_dec _ _ _); [reflexivity|]. destruct (obss T s (nextobs T s)) eqn:Eo; [|reflexivity].
    assert (alive s (nextobs T s)) by (eexists; exact Eo). pose proof (iFresh s I _ H). lia. }
  destruct (new_dres_ok s1 r deps scal S1 Hf1) as (s2 & d2 & R2 & S2 & T2 & C2 & U2 & N2 & O2 & E2 & G1 & G2 & G3 & G4 & G5).
  { rewrite (deps_alive_frame s s1); auto. }
  rewrite R2. cbn [bind]. rewrite N1 in *. set (o := nextobs T s) in *.
  assert (FR : forall c' x, In x (elist s c') -> x <> o).
  { intros c' x Hx. pose proof (iFresh s I x (iAlive s I c' x Hx)). unfold o. lia. }
  assert (NDl : NoDup (o :: l1)).
  { constructor; [|apply NoDup_fresh; apply (iND s I)]. intros H. apply fresh_filter_In in H. destruct H as (H & _). apply (FR c _ H); reflexivity. }
  assert (AL2 : forall x, alive s2 x <-> (x = o /\ In x (o :: l1)) \/ (x <> o /\ alive s x /\ (In x (elist s c) -> In x (o :: l1)))).
  { intros x. unfold alive. destruct (Nat.eq_dec x o) as [->|Ne].
    - rewrite E2. split; [intros _; left; split; [reflexivity|left; reflexivity]|intros _; eauto].
    - rewrite O2 by exact Ne. rewrite O1. destruct (in_dec Nat.eq_dec x (filter (isstale s) (elist s c))) as [Hi|Hi].
      + split; [intros (d & H); discriminate|]. intros [(H & _)|(_ & _ & H)]; [contradiction|].
        assert (Hx : In x (elist s c)) by (apply filter_In in Hi; apply Hi).
        specialize (H Hx). destruct H as [H|H]; [congruence|]. apply fresh_filter_drop in H. tauto.
      + split.
        * intros H. right. split; [exact Ne|]. split; [exact H|]. intros Hx. right. apply fresh_filter_drop. tauto.
        * intros [(H & _)|(_ & H & _)]; [contradiction|exact H]. }
  assert (Same2 : forall x dx dx', obss T s x = Some dx -> obss T s2 x = Some dx' -> dx' = dx).
  { intros x dx dx' H1 H2. assert (x <> o) by (assert (Ax : alive s x) by (eexists; exact H1); pose proof (iFresh s I x Ax); unfold o; lia).
    rewrite O2 in H2 by assumption. rewrite O1 in H2. destruct (in_dec _ _ _); congruence. }
  assert (Tg : tags_eq s s2) by (intros x; rewrite T2; apply T1).
  assert (TR : forall s3 m l', caches T s3 = caches T s -> tags_eq s s3 -> (forall x, In x l' -> In x (o :: l1)) ->
     (forall x d', In x l' -> obss T s3 x = Some d' -> obss T s2 x = Some d') ->
     (forall c' x d', c' <> c -> In x (elist s c') -> obss T s3 x = Some d' -> obss T s2 x = Some d') ->
     trans s (set_cache T s3 c (Some (mkCache m (Some l')))) (CAdd T c r deps scal)).
  { intros s3 m l' C3 T3 HL H3 H4 c' x d' Hin Ex St. rewrite elist_set in Hin. cbn [entries] in Hin. cbn [set_cache obss] in Ex.
    assert (Old : x <> o -> obss T s2 x = Some d' -> obss T s x = Some d').
    { intros Ne H. rewrite O2 in H by exact Ne. rewrite O1 in H. destruct (in_dec _ _ _); [discriminate|exact H]. }
    assert (Keep : obss T s x = Some d' -> In x (elist s c') -> (In x (elist s c') /\ exists d, obss T s x = Some d /\ stale T d = false /\ dsame d d' /\
      (forall x, In x (subjects T d) -> In x (subjects T d') /\ tagof (set_cache T s3 c (Some (mkCache m (Some l')))) x = tagof s x) /\
      ~ disturbs (CAdd T c r deps scal) c' (subjects T d))).
    { intros H Hi. split; [exact Hi|]. exists d'. repeat split; auto. rewrite tagof_set. apply T3. }
    destruct (c' =? c) eqn:Ec.
    - apply Nat.eqb_eq in Ec; subst c'. specialize (HL x Hin). destruct HL as [<-|HL].
      + right. exists deps. assert (d' = d2) as -> by (pose proof (H3 _ _ Hin Ex) as HH; rewrite E2 in HH; injection HH; auto).
        rewrite G2, G3. split; [reflexivity|]. split; [|split; [|exact G5]].
        * rewrite <- AL. apply deps_alive_frame. intros y. rewrite tagof_set. apply T3.
        * rewrite G4. apply map_ext. intros [y|]; [|reflexivity]. cbn [tagval]. rewrite tagof_set, T3, T1. reflexivity.
      + left. apply fresh_filter_In in HL. destruct HL as (HL & _). apply Keep; [|exact HL].
        apply Old; [eapply FR; exact HL|]. apply H3; assumption.
    - rewrite (elist_caches s s3) in Hin by exact C3. apply Nat.eqb_neq in Ec. left. apply Keep; [|exact Hin].
      apply Old; [eapply FR; exact Hin|]. eapply H4; eassumption. }
  assert (LI : forall s3 m l', caches T s3 = caches T s -> l' = cap_list (maxsize ca) (o :: l1) -> (In o l' -> obss T s3 o = Some d2) ->
     lists s (set_cache T s3 c (Some (mkCache m (Some l')))) (CAdd T c r deps scal)).
  { intros s3 m l' C3 Hl' Ho3. split; [|split].
    - intros ca' Hca'. rewrite E in Hca'. injection Hca' as <-. rewrite elist_set, Nat.eqb_refl. exact Hl'.
    - rewrite elist_set, Nat.eqb_refl. cbn [entries]. intros Hi. exists d2. split; [apply Ho3; exact Hi|exact G1].
    - intros c' Hc'. rewrite elist_set. apply Nat.eqb_neq in Hc'. rewrite Hc'. apply elist_caches; exact C3. }
  assert (Len1 : (0 <= maxsize ca)%Z -> (Z.of_nat (length l1) <= maxsize ca)%Z).
  { intros H. pose proof (iCap s I c ca E H). pose proof (filter_len (fun o => negb (isstale s o)) (elist s c)). unfold l1, fresh_filter. lia. }
  assert (CC2 : caches T s2 = caches T s) by (rewrite C2; exact C1).
  assert (UU2 : uniq T s2 = uniq T s) by (rewrite U2; exact U1).
  destruct ((0 <=? maxsize ca)%Z && (maxsize ca <? Z.of_nat (length (o :: l1)))%Z) eqn:Ecap.
  - apply andb_true_iff in Ecap. destruct Ecap as (K1 & K2). apply Z.leb_le in K1. apply Z.ltb_lt in K2.
    destruct (rev (o :: l1)) as [|b rl] eqn:Erev.
    { apply (f_equal (@length nat)) in Erev. rewrite rev_length in Erev. discriminate. }
    destruct (rev_cons_removelast _ _ _ Erev) as (Q1 & Q2).
    assert (Hb : In b (o :: l1)) by (rewrite Q2; apply in_or_app; right; left; reflexivity).
    assert (Ab : alive s2 b).
    { apply AL2. destruct (Nat.eq_dec b o) as [->|Ne]; [left; auto|right]. split; [exact Ne|]. split; [|auto].
      destruct Hb as [Hb|Hb]; [congruence|]. apply fresh_filter_In in Hb. apply (iAlive s I c); apply Hb. }
    destruct Ab as (db & Edb). destruct (destroy_observer_ok s2 b db S2 Edb) as (s3 & R3 & S3 & (T3 & C3 & U3 & N3) & O3).
    rewrite R3. cbn [bind]. rewrite Q1. eexists. eexists. split; [reflexivity|].
    assert (HRL : forall x, In x (removelast (o :: l1)) -> In x (o :: l1)) by (intros x Hx; rewrite Q2; apply in_or_app; left; exact Hx).
    assert (NDr : NoDup (removelast (o :: l1)) /\ ~ In b (removelast (o :: l1))).
    { rewrite Q2 in NDl. apply NoDup_remove in NDl. rewrite app_nil_r in NDl. exact NDl. }
    assert (HRL2 : forall x, In x (o :: l1) -> x <> b -> In x (removelast (o :: l1))).
    { intros x Hx Hne. rewrite Q2 in Hx. apply in_app_or in Hx. destruct Hx as [Hx|[Hx|[]]]; [exact Hx|congruence]. }
    apply good_split; [|intros Iend; apply fwd_sub; [exact Iend|intros x; rewrite tagof_set, T3; apply Tg|
      intros x dx dx' H1 H2; cbn [set_cache obss] in H2; rewrite O3 in H2; destruct (in_dec Nat.eq_dec x [b]); [discriminate|]; eapply Same2; eassumption]].
    split; [|split; [|split; [|split]]].
    + apply (final_SInv s); auto.
      * rewrite C3; exact CC2.
      * rewrite N3; exact N2.
      * intros x. fold o. unfold alive. rewrite O3. destruct (in_dec Nat.eq_dec x [b]) as [[<-|[]]|Hx].
        -- split; [intros (d & H); discriminate|]. intros [(_ & H)|(Ne & H & H2)].
           ++ destruct NDr as (_ & NDr). contradiction.
           ++ destruct Hb as [Hb|Hb]; [congruence|]. apply fresh_filter_In in Hb. destruct NDr as (_ & NDr). destruct NDr. apply H2; apply Hb.
        -- assert (Hxb : x <> b) by (intros ->; apply Hx; left; reflexivity).
           change (exists d : dres, obss T s2 x = Some d) with (alive s2 x). rewrite AL2.
           split; (intros [(A & B)|(A & B & C)]; [left|right]); split; auto.
      * apply NDr.
      * intros x Hx. apply HRL in Hx. destruct Hx as [Hx|Hx]; [left; auto|right]. apply fresh_filter_In in Hx. apply Hx.
      * intros H. apply (f_equal (@length nat)) in Q2. rewrite app_length in Q2. cbn [length] in Q2.
        specialize (Len1 H). cbn [length] in K2. lia.
    + apply TR; auto.
      * rewrite C3; exact CC2.
      * intros x. rewrite T3. apply Tg.
      * intros x d' _ H. rewrite O3 in H. destruct (in_dec _ _ _); [discriminate|exact H].
      * intros c' x d' _ _ H. rewrite O3 in H. destruct (in_dec _ _ _); [discriminate|exact H].
    + apply LI; [rewrite C3; exact CC2| |intros Hi; rewrite O3; destruct (in_dec Nat.eq_dec o [b]) as [[<-|[]]|_]; [destruct (proj2 NDr Hi)|exact E2]]. unfold cap_list. replace (0 <=? maxsize ca)%Z with true by (symmetry; apply Z.leb_le; exact K1).
      symmetry. apply firstn_removelast. specialize (Len1 K1). cbn [length] in *. lia.
    + apply (maxs_set s s3 c ca); auto. rewrite C3; exact CC2.
    + split; [cbn [set_cache uniq]; rewrite U3; exact UU2|]. intros x. rewrite tagof_set, T3. apply Tg.
  - eexists. eexists. split; [reflexivity|].
    assert (Cap : (0 <= maxsize ca)%Z -> (Z.of_nat (length (o :: l1)) <= maxsize ca)%Z).
    { intros H. apply andb_false_iff in Ecap. destruct Ecap as [K|K]; [apply Z.leb_gt in K; lia|apply Z.ltb_ge in K; exact K]. }
    apply good_split; [|intros Iend; apply fwd_sub; [exact Iend|intros x; rewrite tagof_set; apply Tg|
      intros x dx dx' H1 H2; cbn [set_cache obss] in H2; eapply Same2; eassumption]].
    split; [|split; [|split; [|split]]].
    + apply (final_SInv s); auto.
      intros x [Hx|Hx]; [left; auto|right]. apply fresh_filter_In in Hx. apply Hx.
    + apply TR; auto.
    + apply LI; [exact CC2| |intros _; exact E2]. unfold cap_list. destruct (0 <=? maxsize ca)%Z eqn:K; [|reflexivity].
      apply Z.leb_le in K. specialize (Cap K). symmetry. apply firstn_all2. lia.
    + apply (maxs_set s s2 c ca); auto.
    + split; [exact UU2|]. intros x. rewrite tagof_set. apply Tg.
Qed.

(** The entry created by an add (if it is not evicted at once). *)
Lemma step_add_new s c r deps scal s' ca : SInv s -> caches T s c = Some ca ->
  step T s (CAdd T c r deps scal) = Ok (s', Done T) -> ((0 <= maxsize ca)%Z -> (0 < maxsize ca)%Z) ->
  exists d, deps_alive T s' deps = true /\ obss T s' (nextobs T s) = Some d /\ stale T d = false /\ result T d = r /\ dscal T d = scal /\
    dtags T d = map (tagval s') deps /\ subjects T d = somes deps.
Proof.
  intros I E R Hm. destruct (step_add s c r deps scal I) as [B|(s1 & v & R1 & I1 & (Tr & _) & (L & Lo & _) & _ & TS)].
  { rewrite B in R. discriminate. }
  rewrite R in R1. injection R1 as <- _. specialize (L ca E).
  assert (Hin : In (nextobs T s) (elist s' c)).
  { rewrite L. unfold cap_list. destruct (0 <=? maxsize ca)%Z eqn:Em; [|left; reflexivity].
    apply Z.leb_le in Em. specialize (Hm Em). destruct (Z.to_nat (maxsize ca)) eqn:En; [lia|]. left; reflexivity. }
  destruct (Lo Hin) as (d & Ed & St). exists d.
  destruct (Tr c _ d Hin Ed St) as [(Hi & _)|(deps0 & Eq & AL & DT & SB)].
  - exfalso. pose proof (iFresh s I _ (iAlive s I c _ Hi)). lia.
  - injection Eq as -> -> ->. repeat split; auto.
Qed.

Theorem step_good s op : SInv s -> good s op (step T s op).
Proof.
  intros I. destruct op.
  - apply step_new; exact I.
  - apply step_change; exact I.
  - apply step_odestroy; exact I.
  - apply step_cnew; exact I.
  - apply step_cdestroy; exact I.
  - apply step_add; exact I.
  - apply step_get; exact I.
  - apply step_invalidate; exact I.
  - apply step_clear; exact I.
  - apply step_gettag; exact I.
Qed.

Lemma SInv_init : SInv (init T).
Proof.
  constructor; try (intros; cbn in *; contradiction || discriminate).
  - intros x o. reflexivity.
  - intros c. cbn. constructor.
  - intros o (d & H). discriminate.
  - intros o (d & H). discriminate.
Qed.
End P.
