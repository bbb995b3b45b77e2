From Coq Require Import List ZArith Bool Arith Lia.
From Verif Require Import SmartPtrModel.
Import ListNotations.

Definition inb (l : loc) (E : list loc) : bool := if in_dec loc_eq_dec l E then true else false.
Lemma inb_true l E : inb l E = true <-> In l E.
Proof. unfold inb. destruct (in_dec loc_eq_dec l E); split; congruence || auto. Qed.
Lemma inb_false l E : inb l E = false <-> ~ In l E.
Proof. unfold inb. destruct (in_dec loc_eq_dec l E); split; congruence || auto. Qed.
Definition points (p : loc -> option nat) (o : nat) (l : loc) : bool :=
  match p l with Some x => Nat.eqb x o | None => false end.
Lemma points_true p o l : points p o l = true <-> p l = Some o.
Proof. unfold points. destruct (p l) as [x|]; [rewrite Nat.eqb_eq|]; split; congruence. Qed.

Section Rel.
(** [X o]: references to [o] held temporarily, outside of the live SmartPtrs. *)
Variable X : nat -> nat.

(** Number of live SmartPtrs outside [E] that refer to [o]. *)
Definition refs (E : list loc) (s : st) (o : nat) : nat :=
  length (filter (fun l => negb (inb l E) && points (ptr s) o l) (locs s)).

Record Inv (E : list loc) (D : list nat) (s : st) : Prop := mkInv {
  vND : NoDup (locs s);
  vOND : NoDup (olist s);
  vOl : forall o, In o (olist s) <-> objs s o <> None;
  vPtr : forall l o, In l (locs s) -> ~ In l E -> ptr s l = Some o -> exists ob, objs s o = Some ob /\ owned ob = true;
  vCnt : forall o ob, objs s o = Some ob -> cnt ob = Z.of_nat (refs E s o + X o);
  vMem : forall o ob k, objs s o = Some ob -> ~ In o D -> k < slots ob -> In (Mem o k) (locs s);
  vMem2 : forall o k, In (Mem o k) (locs s) -> exists ob, objs s o = Some ob /\ k < slots ob;
  vD : forall o ob, In o D -> objs s o = Some ob -> cnt ob = 0%Z /\ owned ob = true;
  vOwn : forall o ob, objs s o = Some ob -> ~ In o D -> cnt ob = 0%Z -> owned ob = false
}.

(** Reachable, through SmartPtrs outside [E], from a root, an object not owned yet or one held temporarily. *)
Inductive Reach (E : list loc) (s : st) : nat -> Prop :=
| Rkept o ob : objs s o = Some ob -> owned ob = false \/ 0 < X o -> Reach E s o
| Rroot r o : In (Root r) (locs s) -> ~ In (Root r) E -> ptr s (Root r) = Some o -> Reach E s o
| Rmem a k o : Reach E s a -> In (Mem a k) (locs s) -> ~ In (Mem a k) E -> ptr s (Mem a k) = Some o -> Reach E s o.

Lemma filter_minus (f : loc -> bool) x : forall l, NoDup l -> In x l -> f x = true ->
  length (filter (fun y => f y && negb (if loc_eq_dec y x then true else false)) l) + 1 = length (filter f l).
Proof.
  induction l as [|a l IH]; intros ND Hin Hf; [contradiction|]. inversion ND as [|? ? Nin ND']; subst. cbn [filter].
  destruct Hin as [->|Hin].
  - rewrite Hf. destruct (loc_eq_dec x x); [|congruence]. cbn [negb andb length].
    assert (E : filter (fun y => f y && negb (if loc_eq_dec y x then true else false)) l = filter f l).
    { apply filter_ext_in. intros y Hy. destruct (loc_eq_dec y x); [subst; contradiction|]. rewrite andb_true_r. reflexivity. }
    rewrite E. lia.
  - specialize (IH ND' Hin Hf). destruct (loc_eq_dec a x); [subst; contradiction|]. rewrite andb_true_r.
    destruct (f a); cbn [length]; lia.
Qed.

Lemma refs_cons E s l o : NoDup (locs s) -> In l (locs s) -> ~ In l E ->
  refs E s o = refs (l :: E) s o + (if points (ptr s) o l then 1 else 0).
Proof.
  intros ND Hin HE. unfold refs.
  assert (G : filter (fun x => negb (inb x (l :: E)) && points (ptr s) o x) (locs s) =
              filter (fun x => (negb (inb x E) && points (ptr s) o x) && negb (if loc_eq_dec x l then true else false)) (locs s)).
  { apply filter_ext. intros x. destruct (loc_eq_dec x l) as [->|N].
    - assert (Hi : inb l (l :: E) = true) by (apply inb_true; left; reflexivity). rewrite Hi. cbn. rewrite andb_false_r. reflexivity.
    - assert (Hi : inb x (l :: E) = inb x E).
      { destruct (inb x E) eqn:E1; [apply inb_true; apply inb_true in E1; right; exact E1|].
        apply inb_false; apply inb_false in E1. intros [H|H]; [congruence|contradiction]. }
      rewrite Hi. cbn [negb]. rewrite andb_true_r. reflexivity. }
  destruct (points (ptr s) o l) eqn:P.
  - rewrite G. symmetry. apply filter_minus; auto. apply inb_false in HE. rewrite HE, P. reflexivity.
  - rewrite Nat.add_0_r. f_equal. apply filter_ext. intros x. destruct (loc_eq_dec x l) as [->|N].
    + rewrite P. rewrite !andb_false_r. reflexivity.
    + assert (Hi : inb x (l :: E) = inb x E).
      { destruct (inb x E) eqn:E1; [apply inb_true; apply inb_true in E1; right; exact E1|].
        apply inb_false; apply inb_false in E1. intros [H|H]; [congruence|contradiction]. }
      rewrite Hi. reflexivity.
Qed.

Lemma refs_pos E s l o : In l (locs s) -> ~ In l E -> ptr s l = Some o -> 0 < refs E s o.
Proof.
  intros Hin HE Hp. unfold refs.
  assert (H : In l (filter (fun x => negb (inb x E) && points (ptr s) o x) (locs s))).
  { apply filter_In. split; [exact Hin|]. apply inb_false in HE. rewrite HE. apply points_true in Hp. rewrite Hp. reflexivity. }
  destruct (filter _ _); [contradiction|cbn; lia].
Qed.

Lemma refs_zero E s o : refs E s o = 0 -> forall l, In l (locs s) -> ~ In l E -> ptr s l <> Some o.
Proof. intros H l Hin HE Hp. pose proof (refs_pos E s l o Hin HE Hp). lia. Qed.

Lemma remove_NoDup {A} (dec : forall x y : A, {x = y} + {x <> y}) a l : NoDup l -> NoDup (remove dec a l).
Proof.
  induction 1; cbn; [constructor|]. destruct (dec a x); [exact IHNoDup|]. constructor; [|exact IHNoDup].
  intros Hi. apply in_remove in Hi. tauto.
Qed.

Lemma refs_drop E s l o : NoDup (locs s) -> In l (locs s) -> ~ In l E -> refs E (drop_loc s l) o = refs (l :: E) s o.
Proof.
  intros ND Hin HE. unfold refs, drop_loc; cbn [locs ptr].
  assert (G : forall L, filter (fun x => negb (inb x E) && points (ptr s) o x) (remove loc_eq_dec l L) =
    filter (fun x => negb (inb x (l :: E)) && points (ptr s) o x) L).
  { induction L as [|x L IH]; [reflexivity|]. cbn [remove filter]. destruct (loc_eq_dec l x) as [<-|N].
    - assert (Hi : inb l (l :: E) = true) by (apply inb_true; left; reflexivity). rewrite Hi. exact IH.
    - cbn [filter]. assert (Hi : inb x (l :: E) = inb x E).
      { destruct (inb x E) eqn:E1; [apply inb_true; apply inb_true in E1; right; exact E1|].
        apply inb_false; apply inb_false in E1. intros [H|H]; [congruence|contradiction]. }
      rewrite Hi, IH. reflexivity. }
  rewrite G. reflexivity.
Qed.

Record Post (E : list loc) (D : list nat) (s s' : st) : Prop := mkPost {
  pLocs : forall x, In x (locs s') -> In x (locs s);
  pPtr : forall x, ptr s' x = ptr s x;
  pD : forall d, In d D -> objs s' d = objs s d /\ forall k, In (Mem d k) (locs s) -> In (Mem d k) (locs s');
  pRoot : forall r, In (Root r) (locs s) -> In (Root r) (locs s');
  pReach : forall o, Reach E s o -> Reach E s' o;
  pLen : length (olist s') <= length (olist s);
  pOl : forall o, In o (olist s') -> In o (olist s);
  pObj : forall o ob', objs s' o = Some ob' -> exists ob, objs s o = Some ob /\ slots ob' = slots ob /\ owned ob' = owned ob
}.
Lemma Post_refl E D s : Post E D s s.
Proof. constructor; auto. intros o ob H; exists ob; auto. Qed.
Lemma Post_trans E D a b c : Post E D a b -> Post E D b c -> Post E D a c.
Proof.
  intros A B. constructor.
  - intros x H. apply (pLocs _ _ _ _ A), (pLocs _ _ _ _ B), H.
  - intros x. rewrite (pPtr _ _ _ _ B). apply (pPtr _ _ _ _ A).
  - intros d H. destruct (pD _ _ _ _ A d H) as (A1 & A2), (pD _ _ _ _ B d H) as (B1 & B2). split; [congruence|auto].
  - intros r H. apply (pRoot _ _ _ _ B), (pRoot _ _ _ _ A), H.
  - intros o H. apply (pReach _ _ _ _ B), (pReach _ _ _ _ A), H.
  - pose proof (pLen _ _ _ _ A). pose proof (pLen _ _ _ _ B). lia.
  - intros o H. apply (pOl _ _ _ _ A), (pOl _ _ _ _ B), H.
  - intros o ob H. destruct (pObj _ _ _ _ B o ob H) as (b1 & H1 & H2 & H3). destruct (pObj _ _ _ _ A o b1 H1) as (b2 & H4 & H5 & H6).
    exists b2. split; [exact H4|]. split; congruence.
Qed.

Lemma Reach_own E D s o ob : Inv E D s -> Reach E s o -> objs s o = Some ob -> cnt ob = 0%Z -> owned ob = false.
Proof.
  intros I R H. rewrite (vCnt E D s I o ob H).
  destruct R as [x xb H1 H2|r x H1 H2 H3|a k x _ H1 H2 H3]; intros Q.
  - destruct H2 as [H2|H2]; [congruence|lia].
  - pose proof (refs_pos E s _ _ H1 H2 H3); lia.
  - pose proof (refs_pos E s _ _ H1 H2 H3); lia.
Qed.

Lemma Reach_weaken E s l o : Reach (l :: E) s o -> Reach E s o.
Proof.
  intros R. induction R as [x xb H1 H2|r x H1 H2 H3|a k x _ IH H1 H2 H3].
  - eapply Rkept; eauto.
  - eapply Rroot; eauto. intros H; apply H2; right; exact H.
  - eapply Rmem; eauto. intros H; apply H2; right; exact H.
Qed.
(** Members of an object that is not reachable do not matter. *)
Lemma Reach_dying E s d k o : ~ Reach E s d -> Reach E s o -> Reach (Mem d k :: E) s o.
Proof.
  intros Hd R. induction R as [x xb H1 H2|r x H1 H2 H3|a j x R IH H1 H2 H3].
  - eapply Rkept; eauto.
  - eapply Rroot; eauto. intros [H|H]; [discriminate|contradiction].
  - eapply Rmem; eauto. intros [H|H]; [|contradiction]. injection H as -> ->. contradiction.
Qed.

Definition live_not (D : list nat) (s : st) : nat :=
  length (filter (fun o => if in_dec Nat.eq_dec o D then false else true) (olist s)).

Lemma live_not_cons D s o : NoDup (olist s) -> In o (olist s) -> ~ In o D -> live_not (o :: D) s + 1 <= live_not D s.
Proof.
  intros ND Hin HD. unfold live_not. induction (olist s) as [|a l IH]; [contradiction|].
  inversion ND as [|? ? Nin ND']; subst. cbn [filter].
  assert (Sub : forall L, length (filter (fun x => if in_dec Nat.eq_dec x (o :: D) then false else true) L) <=
                length (filter (fun x => if in_dec Nat.eq_dec x D then false else true) L)).
  { induction L as [|x L IHL]; [cbn; lia|]. cbn [filter].
    destruct (in_dec Nat.eq_dec x (o :: D)) as [H|H], (in_dec Nat.eq_dec x D) as [H2|H2]; cbn [length]; try lia.
    destruct H; right; exact H2. }
  destruct Hin as [->|Hin].
  - destruct (in_dec Nat.eq_dec o (o :: D)) as [_|H]; [|destruct H; left; reflexivity].
    destruct (in_dec Nat.eq_dec o D); [contradiction|]. cbn [length]. specialize (Sub l). lia.
  - specialize (IH ND' Hin).
    destruct (in_dec Nat.eq_dec a (o :: D)) as [H|H], (in_dec Nat.eq_dec a D) as [H2|H2]; cbn [length]; try lia.
    destruct H; right; exact H2.
Qed.
Lemma live_not_mono D s s' : (forall o, In o (olist s') -> In o (olist s)) -> NoDup (olist s') -> live_not D s' <= live_not D s.
Proof.
  intros H ND. unfold live_not. apply NoDup_incl_length; [apply NoDup_filter; exact ND|].
  intros x Hx. apply filter_In in Hx. apply filter_In. split; [apply H|]; apply Hx.
Qed.

Lemma Inv_E_null E D s l : Inv E D s -> In l (locs s) -> ~ In l E -> ptr s l = None -> Inv (l :: E) D s.
Proof.
  intros I Hin HE Hp. destruct I as [A1 A2 A3 A4 A5 A6 A7 A8 A9]. constructor; auto.
  - intros x o H1 H2. apply A4; auto. intros H; apply H2; right; exact H.
  - intros o ob Ho. rewrite (A5 o ob Ho). rewrite (refs_cons E s l o A1 Hin HE). unfold points. rewrite Hp. f_equal. lia.
Qed.

Lemma has_loc_true s l : has_loc s l = true <-> In l (locs s).
Proof. unfold has_loc. destruct (in_dec loc_eq_dec l (locs s)); split; congruence || auto. Qed.

(** Holders of the SmartPtrs in [E] are being destroyed or reachable. *)
Definition safeE (E : list loc) (D : list nat) (s : st) : Prop := forall a k, In (Mem a k) E -> In a D \/ Reach E s a.
Definition rel_spec (f : nat) : Prop := forall E D s l, Inv E D s -> In l (locs s) -> ~ In l E -> safeE (l :: E) D s -> live_not D s < f ->
  exists s', release f s l = Ok s' /\ Inv (l :: E) D s' /\ Post (l :: E) D s s'.

Lemma Inv_drop E D s l : Inv (l :: E) D s -> In l (locs s) -> ~ In l E ->
  match l with Root _ => True | Mem d _ => In d D end -> Inv E D (drop_loc s l).
Proof.
  intros [A1 A2 A3 A4 A5 A6 A7 A8 A9] Hin HE HD. constructor; cbn [drop_loc objs olist locs ptr]; auto.
  - apply remove_NoDup; exact A1.
  - intros x o Hx HxE. apply in_remove in Hx. destruct Hx as (Hx & Hne). apply A4; [exact Hx|]. intros [H|H]; [congruence|contradiction].
  - intros o ob Ho. rewrite refs_drop by assumption. apply A5; exact Ho.
  - intros o ob k Ho Hnd Hk. apply in_in_remove; [|eapply A6; eassumption]. destruct l as [r|d j]; [discriminate|]. intros H. injection H as -> ->. contradiction.
  - intros o k Hx. apply in_remove in Hx. apply A7; apply Hx.
Qed.

Lemma Reach_drop E s l o : Reach (l :: E) s o -> Reach E (drop_loc s l) o.
Proof.
  intros R. induction R as [x xb H1 H2|r x H1 H2 H3|a k x _ IH H1 H2 H3].
  - eapply Rkept; cbn [drop_loc objs]; eauto.
  - eapply Rroot; cbn [drop_loc locs ptr]; [apply in_in_remove; [|exact H1]; intros Q; apply H2; left; congruence| |exact H3].
    intros H; apply H2; right; exact H.
  - eapply Rmem; cbn [drop_loc locs ptr]; [exact IH|apply in_in_remove; [|exact H1]; intros Q; apply H2; left; congruence| |exact H3].
    intros H; apply H2; right; exact H.
Qed.

Lemma del_members_ok f o : rel_spec f -> forall k E D s, Inv E D s -> In o D -> (exists ob, objs s o = Some ob) -> safeE E D s -> live_not D s < f ->
  (forall j, In (Mem o j) (locs s) <-> j < k) -> (forall j, ~ In (Mem o j) E) ->
  exists s', del_members (release f) k o s = Ok s' /\ Inv E D s' /\ Post E [] s s' /\ (forall j, ~ In (Mem o j) (locs s')) /\
    (forall d, In d D -> objs s' d = objs s d /\ (d <> o -> forall j, In (Mem d j) (locs s) -> In (Mem d j) (locs s'))).
Proof.
  intros HR. induction k as [|k IH]; intros E D s I HD (ob & Eo) SE Lf Hm HnE.
  - exists s. split; [reflexivity|]. split; [exact I|]. split; [apply Post_refl|]. split.
    + intros j Hj. apply Hm in Hj. lia.
    + intros d _. split; auto.
  - cbn [del_members]. set (m := Mem o k).
    assert (Hin : In m (locs s)) by (apply Hm; lia).
    assert (Hun : ~ Reach E s o).
    { intros R. destruct (vD E D s I o ob HD Eo) as (Q1 & Q2). pose proof (Reach_own E D s o ob I R Eo Q1). congruence. }
    assert (SE1 : safeE (m :: E) D s).
    { intros a j [H|H]; [injection H as <- <-; left; exact HD|]. destruct (SE a j H) as [H2|H2]; [left; exact H2|right].
      apply Reach_dying; assumption. }
    destruct (HR E D s m I Hin (HnE k) SE1 Lf) as (s1 & R1 & I1 & P1). rewrite R1. cbn [bind].
    destruct (pD _ _ _ _ P1 o HD) as (Eo1 & Hm1).
    assert (Hin1 : In m (locs s1)) by (apply Hm1; exact Hin).
    assert (I2 : Inv E D (drop_loc s1 m)) by (apply Inv_drop; [exact I1|exact Hin1|apply HnE|exact HD]).
    assert (P2 : Post E [] s (drop_loc s1 m)).
    { constructor; cbn [drop_loc locs ptr objs olist].
      - intros x Hx. apply in_remove in Hx. apply (pLocs _ _ _ _ P1); apply Hx.
      - apply (pPtr _ _ _ _ P1).
      - intros d [].
      - intros r Hr. apply in_in_remove; [discriminate|]. apply (pRoot _ _ _ _ P1); exact Hr.
      - intros x Rx. apply Reach_drop. apply (pReach _ _ _ _ P1). apply Reach_dying; assumption.
      - apply (pLen _ _ _ _ P1).
      - apply (pOl _ _ _ _ P1).
      - apply (pObj _ _ _ _ P1). }
    destruct (IH E D (drop_loc s1 m) I2 HD) as (s3 & R3 & I3 & P3 & N3 & D3).
    + exists ob. cbn [drop_loc objs]. congruence.
    + intros a j H. destruct (SE a j H) as [H2|H2]; [left; exact H2|right]. apply (pReach _ _ _ _ P2). exact H2.
    + assert (L1 : live_not D (drop_loc s1 m) <= live_not D s).
      { apply live_not_mono; [apply (pOl _ _ _ _ P1)|apply (vOND _ _ _ I1)]. }
      lia.
    + intros j. cbn [drop_loc locs]. split.
      * intros Hj. apply in_remove in Hj. destruct Hj as (Hj & Hne). apply (pLocs _ _ _ _ P1) in Hj. apply Hm in Hj.
        assert (j <> k) by (intros ->; apply Hne; reflexivity). lia.
      * intros Hj. apply in_in_remove; [unfold m; intros H; injection H; lia|]. apply Hm1. apply Hm. lia.
    + exact HnE.
    + exists s3. split; [exact R3|]. split; [exact I3|]. split; [eapply Post_trans; eassumption|]. split; [exact N3|].
      intros d Hd. destruct (D3 d Hd) as (Q1 & Q2). destruct (pD _ _ _ _ P1 d Hd) as (Q3 & Q4). split.
      * rewrite Q1. cbn [drop_loc objs]. exact Q3.
      * intros Hne j Hj. apply Q2; [exact Hne|]. cbn [drop_loc locs]. apply in_in_remove; [unfold m; intros H; injection H; congruence|apply Q4; exact Hj].
Qed.

Lemma refs_set_obj E s o v x : refs E (set_obj s o v) x = refs E s x.
Proof. reflexivity. Qed.
Lemma Reach_set_obj E s o ob v x : objs s o = Some ob -> owned v = owned ob -> Reach E s x -> Reach E (set_obj s o (Some v)) x.
Proof.
  intros Eo Ev.
  intros R. induction R as [x xb H1 H2|r y H1 H2 H3|a k y _ IH H1 H2 H3].
  - destruct (Nat.eqb x o) eqn:Q.
    + apply Nat.eqb_eq in Q; subst x. eapply Rkept; [cbn [set_obj objs]; rewrite Nat.eqb_refl; reflexivity|].
      rewrite Ev. rewrite Eo in H1. injection H1 as <-. exact H2.
    + eapply Rkept; [cbn [set_obj objs]; rewrite Q; exact H1|exact H2].
  - eapply Rroot; eauto.
  - eapply Rmem; eauto.
Qed.

Lemma Inv_dec E D s l o ob : Inv E D s -> In l (locs s) -> ~ In l E -> ptr s l = Some o -> objs s o = Some ob ->
  let s1 := set_obj s o (Some (mkObj (cnt ob - 1) (slots ob) (owned ob))) in
  ((cnt ob - 1 <> 0)%Z -> Inv (l :: E) D s1) /\ ((cnt ob - 1 = 0)%Z -> Inv (l :: E) (o :: D) s1) /\ ~ In o D.
Proof.
  intros I Hin HE Hp Eo s1. pose proof I as [A1 A2 A3 A4 A5 A6 A7 A8 A9].
  assert (Hpos : (0 < cnt ob)%Z) by (rewrite (A5 o ob Eo); pose proof (refs_pos E s l o Hin HE Hp); lia).
  assert (HoD : ~ In o D) by (intros H; destruct (A8 o ob H Eo); lia).
  assert (B3 : forall x, In x (olist s1) <-> objs s1 x <> None).
  { intros x. unfold s1; cbn [set_obj objs olist]. rewrite A3. destruct (Nat.eqb x o) eqn:E1; [|reflexivity].
    apply Nat.eqb_eq in E1; subst x. rewrite Eo. split; intros _; discriminate. }
  assert (B4 : forall x y, In x (locs s1) -> ~ In x (l :: E) -> ptr s1 x = Some y -> exists yb, objs s1 y = Some yb /\ owned yb = true).
  { intros x y H1 H2 H3. destruct (A4 x y H1) as (yb & Q1 & Q2); [intros H; apply H2; right; exact H|exact H3|].
    unfold s1; cbn [set_obj objs]. destruct (Nat.eqb y o) eqn:E1; [|eauto]. apply Nat.eqb_eq in E1; subst y.
    eexists. split; [reflexivity|]. cbn [owned]. congruence. }
  assert (B5 : forall x xb, objs s1 x = Some xb -> cnt xb = Z.of_nat (refs (l :: E) s1 x + X x)).
  { intros x xb Hx. unfold s1 in *; cbn [set_obj objs] in Hx. rewrite refs_set_obj.
    assert (Q : forall y yb, objs s y = Some yb -> cnt yb = (Z.of_nat (refs (l :: E) s y + X y) + (if points (ptr s) y l then 1 else 0))%Z).
    { intros y yb Hy. rewrite (A5 y yb Hy). rewrite (refs_cons E s l y A1 Hin HE). destruct (points (ptr s) y l); lia. }
    destruct (Nat.eqb x o) eqn:E1.
    - apply Nat.eqb_eq in E1; subst x. injection Hx as <-. cbn [cnt]. rewrite (Q o ob Eo).
      apply points_true in Hp. rewrite Hp. lia.
    - rewrite (Q x xb Hx). assert (Hnp : points (ptr s) x l = false).
      { unfold points. rewrite Hp. rewrite Nat.eqb_sym. exact E1. }
      rewrite Hnp. lia. }
  assert (B6 : forall x xb k, objs s1 x = Some xb -> ~ In x D -> k < slots xb -> In (Mem x k) (locs s1)).
  { intros x xb k Hx Hnd Hk. unfold s1 in *; cbn [set_obj objs locs] in *. destruct (Nat.eqb x o) eqn:E1.
    - apply Nat.eqb_eq in E1; subst x. injection Hx as <-. apply (A6 o ob); auto.
    - apply (A6 x xb); auto. }
  assert (B7 : forall x k, In (Mem x k) (locs s1) -> exists xb, objs s1 x = Some xb /\ k < slots xb).
  { intros x k Hx. unfold s1 in *; cbn [set_obj objs locs] in *. destruct (A7 x k Hx) as (xb & H1 & H2).
    destruct (Nat.eqb x o) eqn:E1; [|eauto]. apply Nat.eqb_eq in E1; subst x. rewrite Eo in H1. injection H1 as <-. eauto. }
  split; [|split; [|exact HoD]].
  - intros Hc. constructor; auto.
    + intros x xb Hx Hxb. unfold s1 in Hxb; cbn [set_obj objs] in Hxb. destruct (Nat.eqb x o) eqn:E1.
      * apply Nat.eqb_eq in E1; subst x; contradiction.
      * eapply A8; eassumption.
    + intros x xb Hxb Hx Hz. unfold s1 in Hxb; cbn [set_obj objs] in Hxb. destruct (Nat.eqb x o) eqn:E1.
      * injection Hxb as <-. cbn [cnt] in Hz. contradiction.
      * eapply A9; eassumption.
  - intros Hc. constructor; auto.
    + intros x xb k Hx Hnd. apply B6; [exact Hx|]. intros H; apply Hnd; right; exact H.
    + intros x xb Hx Hxb. unfold s1 in Hxb; cbn [set_obj objs] in Hxb. destruct (Nat.eqb x o) eqn:E1.
      * injection Hxb as <-. cbn [cnt owned]. split; [exact Hc|]. destruct (A4 l o Hin HE Hp) as (ob2 & Q1 & Q2). congruence.
      * destruct Hx as [<-|Hx]; [rewrite Nat.eqb_refl in E1; discriminate|]. eapply A8; eassumption.
    + intros x xb Hxb Hx Hz. unfold s1 in Hxb; cbn [set_obj objs] in Hxb. destruct (Nat.eqb x o) eqn:E1.
      * apply Nat.eqb_eq in E1; subst x. destruct Hx; left; reflexivity.
      * eapply A9; [exact Hxb| |exact Hz]. intros H; apply Hx; right; exact H.
Qed.


Lemma refs_kill E s o x : refs E (kill_obj s o) x = refs E s x.
Proof. reflexivity. Qed.

Lemma release_ok : forall f, rel_spec f.
Proof.
  induction f as [|f IH]; intros E D s l I Hin HE SE Lf; [lia|].
  cbn [release]. assert (Hl : has_loc s l = true) by (apply has_loc_true; exact Hin). rewrite Hl.
  destruct (ptr s l) as [o|] eqn:Hp.
  2:{ exists s. split; [reflexivity|]. split; [apply Inv_E_null; assumption|apply Post_refl]. }
  destruct (objs s o) as [ob|] eqn:Eo.
  2:{ exfalso. destruct (vPtr E D s I l o Hin HE Hp) as (ob2 & Q1 & Q2). congruence. }
  assert (Own : owned ob = true) by (destruct (vPtr E D s I l o Hin HE Hp) as (ob2 & Q1 & Q2); congruence).
  destruct (Inv_dec E D s l o ob I Hin HE Hp Eo) as (C1 & C2 & HoD).
  set (s1 := set_obj s o _) in *.
  assert (PD : forall d, In d D -> objs s1 d = objs s d).
  { intros d Hd. unfold s1; cbn [set_obj objs]. destruct (Nat.eqb d o) eqn:E1; [|reflexivity]. apply Nat.eqb_eq in E1; subst; contradiction. }
  destruct (Z.eqb (cnt ob - 1) 0) eqn:Ez.
  - apply Z.eqb_eq in Ez. specialize (C2 Ez).
    assert (E1o : exists ob1, objs s1 o = Some ob1 /\ cnt ob1 = 0%Z /\ owned ob1 = true).
    { unfold s1; cbn [set_obj objs]. rewrite Nat.eqb_refl. eexists. split; [reflexivity|]. split; [exact Ez|exact Own]. }
    destruct E1o as (ob1 & E1o & Cz & Co).
    assert (Hun : ~ Reach (l :: E) s1 o).
    { intros R. pose proof (Reach_own _ _ _ _ _ C2 R E1o Cz). congruence. }
    destruct (del_members_ok f o IH (slots ob) (l :: E) (o :: D) s1 C2) as (s2 & R2 & I2 & P2 & N2 & D2).
    + left; reflexivity.
    + eauto.
    + intros a k H. destruct (SE a k H) as [H2|H2]; [left; right; exact H2|right]. eapply Reach_set_obj; [exact Eo|reflexivity|]; exact H2.
    + assert (L1 : live_not (o :: D) s + 1 <= live_not D s).
      { apply live_not_cons; [apply (vOND _ _ _ I)| |exact HoD]. apply (vOl _ _ _ I). congruence. }
      change (live_not (o :: D) s1) with (live_not (o :: D) s). lia.
    + intros j. change (locs s1) with (locs s). split.
      * intros Hj. destruct (vMem2 _ _ _ I o j Hj) as (ob' & Eo' & Hk). rewrite Eo in Eo'. injection Eo' as <-. exact Hk.
      * intros Hj. apply (vMem _ _ _ I o ob j Eo HoD Hj).
    + intros j H. destruct (SE o j H) as [H2|H2]; [contradiction|]. apply Hun. eapply Reach_set_obj; [exact Eo|reflexivity|]; exact H2.
    + rewrite R2. cbn [bind]. exists (kill_obj s2 o). split; [reflexivity|].
      destruct (D2 o (or_introl eq_refl)) as (E2o & _). rewrite E1o in E2o.
      assert (Z2 : refs (l :: E) s2 o = 0).
      { pose proof (vCnt _ _ _ I2 o ob1 E2o) as H. lia. }
      destruct I2 as [A1 A2 A3 A4 A5 A6 A7 A8 A9]. split.
      * constructor; cbn [kill_obj objs olist locs ptr]; auto.
        -- apply remove_NoDup; exact A2.
        -- intros x. destruct (Nat.eqb x o) eqn:E1.
           ++ apply Nat.eqb_eq in E1; subst x. split; [intros H; apply in_remove in H; tauto|congruence].
           ++ apply Nat.eqb_neq in E1. rewrite <- A3. split; [intros H; apply in_remove in H; tauto|intros H; apply in_in_remove; auto].
        -- intros x y H1 H2 H3. destruct (Nat.eqb y o) eqn:E1; [|eapply A4; eassumption].
           apply Nat.eqb_eq in E1; subst y. exfalso. apply (refs_zero _ _ _ Z2 x H1 H2 H3).
        -- intros x xb Hx. rewrite refs_kill. destruct (Nat.eqb x o); [discriminate|]. apply A5; exact Hx.
        -- intros x xb k Hx Hnd Hk. destruct (Nat.eqb x o) eqn:E1; [discriminate|]. apply Nat.eqb_neq in E1.
           apply (A6 x xb); auto. intros [H|H]; [congruence|contradiction].
        -- intros x k Hx. destruct (Nat.eqb x o) eqn:E1; [|apply A7; exact Hx].
           apply Nat.eqb_eq in E1; subst x. destruct (N2 k Hx).
        -- intros x xb Hx Hxb. destruct (Nat.eqb x o) eqn:E1; [discriminate|]. apply (A8 x xb); [right; exact Hx|exact Hxb].
        -- intros x xb Hxb Hx Hz. destruct (Nat.eqb x o) eqn:E1; [discriminate|]. apply Nat.eqb_neq in E1.
           apply (A9 x xb); auto. intros [H|H]; [congruence|contradiction].
      * constructor; cbn [kill_obj objs olist locs ptr].
        -- intros x Hx. apply (pLocs _ _ _ _ P2) in Hx. exact Hx.
        -- intros x. rewrite (pPtr _ _ _ _ P2). reflexivity.
        -- intros d Hd. assert (d <> o) by (intros ->; contradiction). destruct (D2 d (or_intror Hd)) as (Q1 & Q2).
           destruct (Nat.eqb d o) eqn:E1; [apply Nat.eqb_eq in E1; contradiction|]. split; [rewrite Q1; apply PD; exact Hd|].
           intros k Hk. apply Q2; auto.
        -- intros r Hr. apply (pRoot _ _ _ _ P2). exact Hr.
        -- intros x Rx. assert (R2' : Reach (l :: E) s2 x) by (apply (pReach _ _ _ _ P2); eapply Reach_set_obj; [exact Eo|reflexivity|]; exact Rx).
           assert (Xo : X o = 0) by (pose proof (A5 o ob1 E2o); lia).
           clear - R2' E2o Co Xo. induction R2' as [y yb H1 H2|r y H1 H2 H3|a k y _ IHR H1 H2 H3]; [|eapply Rroot; eauto|eapply Rmem; eauto].
           destruct (Nat.eqb y o) eqn:Q.
           ++ apply Nat.eqb_eq in Q; subst y. exfalso. destruct H2 as [H2|H2]; [congruence|lia].
           ++ eapply Rkept; [cbn [kill_obj objs]; rewrite Q; exact H1|exact H2].
        -- pose proof (pLen _ _ _ _ P2) as H. change (olist s1) with (olist s) in H.
           pose proof (remove_length_le Nat.eq_dec (olist s2) o). lia.
        -- intros x Hx. apply in_remove in Hx. destruct Hx as (Hx & _). apply (pOl _ _ _ _ P2) in Hx. exact Hx.
        -- intros x xb Hx. destruct (Nat.eqb x o) eqn:E1; [discriminate|]. destruct (pObj _ _ _ _ P2 x xb Hx) as (x1 & Q1 & Q2 & Q3).
           unfold s1 in Q1; cbn [set_obj objs] in Q1. rewrite E1 in Q1. eauto.
  - apply Z.eqb_neq in Ez. exists s1. split; [reflexivity|]. split; [apply C1; exact Ez|].
    constructor; auto.
    + intros x Rx. eapply Reach_set_obj; [exact Eo|reflexivity|]; exact Rx.
    + intros x xb Hx. unfold s1 in Hx; cbn [set_obj objs] in Hx. destruct (Nat.eqb x o) eqn:E1; [|eauto].
      apply Nat.eqb_eq in E1; subst x. injection Hx as <-. exists ob. auto.
Qed.

(** A path to the holder of [l] need not go through [l]. *)
Lemma Reach_avoid s a k o : Reach [] s o -> Reach [Mem a k] s o \/ Reach [Mem a k] s a.
Proof.
  intros R. induction R as [x xb H1 H2|r y H1 H2 H3|b j y R IH H1 H2 H3].
  - left. eapply Rkept; eauto.
  - left. eapply Rroot; eauto. intros [H|[]]; discriminate.
  - destruct IH as [IH|IH]; [|right; exact IH]. destruct (loc_eq_dec (Mem b j) (Mem a k)) as [Q|Q].
    + injection Q as -> ->. right; exact IH.
    + left. eapply Rmem; eauto. intros [H|[]]; congruence.
Qed.
End Rel.
