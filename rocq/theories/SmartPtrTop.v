From Coq Require Import List ZArith Bool Arith Lia.
From Verif Require Import SmartPtrModel SmartPtrSpec SmartPtrProofs.
Import ListNotations.

Definition X0 : nat -> nat := fun _ => 0.
Definition Xof (rhs : option nat) : nat -> nat := fun o => match rhs with Some x => if Nat.eqb o x then 1 else 0 | None => 0 end.
Definition top (s : st) : Prop := Inv X0 [] [] s.

Lemma reach_iff s o : top s -> reachable s o <-> Reach X0 [] s o.
Proof.
  intros I. split; intros R.
  - induction R as [r o H1 H2|o H1 H2|a k o _ IH H1 H2].
    + eapply Rroot; eauto.
    + unfold live in H1. destruct (objs s o) as [ob|] eqn:E; [|congruence].
      eapply Rkept; [exact E|left]. destruct (owned ob) eqn:Q; [|reflexivity]. exfalso; apply H2. exists ob; auto.
    + eapply Rmem; eauto.
  - induction R as [o ob H1 H2|r o H1 H2 H3|a k o _ IH H1 H2 H3].
    + destruct H2 as [H2|H2]; [|unfold X0 in H2; lia]. apply via_new; [unfold live; congruence|]. intros (ob' & Q1 & Q2). congruence.
    + eapply via_root; eauto.
    + eapply via_member; eauto.
Qed.

Lemma live_not_nil s : live_not [] s = length (olist s).
Proof. unfold live_not. f_equal. induction (olist s); [reflexivity|]. cbn. f_equal; assumption. Qed.

Lemma Reach_mono_add s o ob E x : objs s o = Some ob ->
  Reach X0 E s x -> Reach (Xof (Some o)) E (set_obj s o (Some (mkObj (cnt ob + 1) (slots ob) true))) x.
Proof.
  intros Eo R. induction R as [x xb H1 H2|r y H1 H2 H3|a k y _ IH H1 H2 H3].
  - destruct (Nat.eqb x o) eqn:Q.
    + apply Nat.eqb_eq in Q; subst x. eapply Rkept; [cbn [set_obj objs]; rewrite Nat.eqb_refl; reflexivity|right].
      unfold Xof. rewrite Nat.eqb_refl. lia.
    + eapply Rkept; [cbn [set_obj objs]; rewrite Q; exact H1|]. destruct H2 as [H2|H2]; [left; exact H2|unfold X0 in H2; lia].
  - eapply Rroot; eauto.
  - eapply Rmem; eauto.
Qed.

Lemma Inv_add s o ob : top s -> objs s o = Some ob ->
  Inv (Xof (Some o)) [] [] (set_obj s o (Some (mkObj (cnt ob + 1) (slots ob) true))).
Proof.
  intros [A1 A2 A3 A4 A5 A6 A7 A8 A9] Eo. constructor; cbn [set_obj objs olist locs ptr]; auto.
  - intros x. rewrite A3. destruct (Nat.eqb x o) eqn:Q; [|reflexivity]. apply Nat.eqb_eq in Q; subst x. rewrite Eo. split; discriminate.
  - intros l x H1 H2 H3. destruct (Nat.eqb x o) eqn:Q; [eexists; split; reflexivity|eapply A4; eauto].
  - intros x xb Hx. rewrite refs_set_obj. unfold Xof. destruct (Nat.eqb x o) eqn:Q.
    + apply Nat.eqb_eq in Q; subst x. injection Hx as <-. cbn [cnt]. rewrite (A5 o ob Eo). unfold X0. lia.
    + rewrite (A5 x xb Hx). unfold X0. lia.
  - intros x xb k Hx Hn Hk. destruct (Nat.eqb x o) eqn:Q; [|eapply A6; eauto]. apply Nat.eqb_eq in Q; subst x.
    injection Hx as <-. eapply A6; eauto.
  - intros x k Hx. destruct (A7 x k Hx) as (xb & Q1 & Q2). destruct (Nat.eqb x o) eqn:Q; [|eauto]. apply Nat.eqb_eq in Q; subst x.
    rewrite Eo in Q1; injection Q1 as <-. eauto.
  - intros x xb []. 
  - intros x xb Hx Hn Hz. destruct (Nat.eqb x o) eqn:Q; [|eapply A9; eauto]. injection Hx as <-. cbn [cnt] in Hz.
    rewrite (A5 o ob Eo) in Hz. lia.
Qed.

Lemma refs_set_ptr s l rhs o : NoDup (locs s) -> In l (locs s) ->
  refs [] (set_ptr s l rhs) o = refs [l] s o + Xof rhs o.
Proof.
  intros ND Hin. rewrite (refs_cons [] (set_ptr s l rhs) l o); [|exact ND|exact Hin|intros []].
  f_equal.
  - unfold refs; cbn [set_ptr locs ptr]. f_equal. apply filter_ext. intros x. destruct (inb x [l]) eqn:Q; [reflexivity|].
    cbn [negb andb]. unfold points. cbn [ptr set_ptr]. destruct (loc_eq_dec x l); [subst|reflexivity].
    apply inb_false in Q. destruct Q; left; reflexivity.
  - unfold points, Xof. cbn [set_ptr ptr]. destruct (loc_eq_dec l l); [|congruence].
    destruct rhs as [x|]; [|reflexivity]. rewrite Nat.eqb_sym. reflexivity.
Qed.

Lemma set_ptr_top s l rhs : Inv (Xof rhs) [l] [] s -> In l (locs s) ->
  (forall o, rhs = Some o -> exists ob, objs s o = Some ob /\ owned ob = true) -> top (set_ptr s l rhs).
Proof.
  intros [A1 A2 A3 A4 A5 A6 A7 A8 A9] Hin Hr. constructor; cbn [set_ptr objs olist locs ptr]; auto.
  - intros x o H1 _ H3. destruct (loc_eq_dec x l) as [->|N]; [apply Hr; exact H3|]. eapply A4; eauto. intros [H|[]]; congruence.
  - intros o ob Ho. change (Z.of_nat (refs [] (set_ptr s l rhs) o + X0 o)) with (Z.of_nat (refs [] (set_ptr s l rhs) o + 0)).
    rewrite (refs_set_ptr s l rhs o A1 Hin). rewrite (A5 o ob Ho). f_equal. lia.
Qed.

Definition eff (s s' : st) (l : loc) (rhs : option nat) : Prop :=
  In l (locs s') /\ ptr s' l = rhs /\ (forall x, In x (locs s') -> In x (locs s) /\ (x <> l -> ptr s' x = ptr s x)) /\
  (forall r, In (Root r) (locs s) -> In (Root r) (locs s')) /\ (forall o, objs s' o <> None -> objs s o <> None).

Lemma set_from_raw_ok s l rhs : top s -> In l (locs s) -> (forall a k, l = Mem a k -> Reach X0 [] s a) -> obj_alive s rhs = true ->
  exists s', set_from_raw s l rhs = Ok s' /\ top s' /\ eff s s' l rhs.
Proof.
  intros I Hin Hs Ha. unfold set_from_raw.
  assert (H1 : exists s1, (match rhs with None => Ok s | Some o => add_ref s o end) = Ok s1 /\ Inv (Xof rhs) [] [] s1 /\
             locs s1 = locs s /\ ptr s1 = ptr s /\ olist s1 = olist s /\ (forall x, Reach X0 [l] s x -> Reach (Xof rhs) [l] s1 x) /\
             (forall o, rhs = Some o -> exists ob, objs s1 o = Some ob /\ owned ob = true) /\ (forall o, objs s1 o <> None -> objs s o <> None)).
  { destruct rhs as [o|].
    - cbn [obj_alive] in Ha. unfold add_ref. destruct (objs s o) as [ob|] eqn:Eo; [|discriminate].
      eexists. split; [reflexivity|]. split; [apply Inv_add; assumption|]. repeat (split; [reflexivity|]). split; [|split].
      + intros x. apply Reach_mono_add; exact Eo.
      + intros x Hx. injection Hx as <-. cbn [set_obj objs]. rewrite Nat.eqb_refl. eexists; split; reflexivity.
      + intros x. cbn [set_obj objs]. destruct (Nat.eqb x o) eqn:Q; [|auto]. apply Nat.eqb_eq in Q; subst x. congruence.
    - exists s. split; [reflexivity|]. split; [exact I|]. repeat (split; [reflexivity|]). split; [auto|]. split; [discriminate|auto]. }
  destruct H1 as (s1 & E1 & I1 & El & Ep & Eol & HR & Hr & Hlv). rewrite E1. cbn [bind].
  destruct (release_ok (Xof rhs) (S (length (olist s1))) [] [] s1 l I1) as (s2 & R2 & I2 & P2).
  - rewrite El; exact Hin.
  - intros [].
  - intros a k [H|[]]. right. apply HR. destruct (Reach_avoid X0 s a k a (Hs a k H)) as [Q|Q]; rewrite H; exact Q.
  - rewrite live_not_nil. lia.
  - rewrite R2. cbn [bind]. 
    assert (Hin2 : In l (locs s2)).
    { destruct l as [r|a k]; [apply (pRoot _ _ _ _ _ P2); rewrite El; exact Hin|].
      assert (Q : Reach (Xof rhs) [Mem a k] s1 a).
      { apply HR. destruct (Reach_avoid X0 s a k a (Hs a k eq_refl)) as [Q|Q]; exact Q. }
      pose proof (pReach _ _ _ _ _ P2 a Q) as Q2.
      assert (Hlive : exists ob, objs s2 a = Some ob).
      { destruct Q2 as [x xb H1 H2|r x H1 H2 H3|b j x _ H1 H2 H3]; [eauto| |];
          destruct (vPtr _ _ _ _ I2 _ _ H1 H2 H3) as (ob & ? & _); eauto. }
      destruct Hlive as (ob & Eob). apply (vMem _ _ _ _ I2 a ob k Eob); [intros []|].
      assert (Hin1 : In (Mem a k) (locs s1)) by (rewrite El; exact Hin).
      destruct (vMem2 _ _ _ _ I1 a k Hin1) as (ob1 & Eob1 & Hk).
      assert (Sl : forall o ob1 ob2, objs s1 o = Some ob1 -> objs s2 o = Some ob2 -> slots ob2 = slots ob1).
      { intros o b1 b2 Q1' Q2'. destruct (pObj _ _ _ _ _ P2 o b2 Q2') as (b3 & ? & ? & _). congruence. }
      rewrite (Sl a ob1 ob Eob1 Eob). exact Hk. }
    assert (Hh : has_loc s2 l = true) by (apply has_loc_true; exact Hin2). rewrite Hh.
    eexists. split; [reflexivity|]. split.
    + apply set_ptr_top; [exact I2|exact Hin2|]. intros o Ho. destruct (Hr o Ho) as (ob & Q1 & Q2).
      assert (Q : Reach (Xof rhs) [l] s1 o).
      { eapply Rkept; [exact Q1|right]. unfold Xof. rewrite Ho, Nat.eqb_refl. lia. }
      pose proof (pReach _ _ _ _ _ P2 o Q) as Q3. 
      assert (Hlive : exists ob, objs s2 o = Some ob).
      { destruct Q3 as [x xb H1 H2|r x H1 H2 H3|b j x _ H1 H2 H3]; [eauto| |];
          destruct (vPtr _ _ _ _ I2 _ _ H1 H2 H3) as (ob' & ? & _); eauto. }
      destruct Hlive as (ob2 & Eob2). exists ob2. split; [exact Eob2|].
      destruct (pObj _ _ _ _ _ P2 o ob2 Eob2) as (b3 & ? & _ & ?). congruence.
    + unfold eff. cbn [set_ptr locs ptr objs]. split; [exact Hin2|]. split; [destruct (loc_eq_dec l l); congruence|]. split; [|split].
      * intros x Hx. split; [rewrite <- El; apply (pLocs _ _ _ _ _ P2); exact Hx|]. intros N. destruct (loc_eq_dec x l); [congruence|].
        rewrite (pPtr _ _ _ _ _ P2). rewrite Ep. reflexivity.
      * intros r Hx. apply (pRoot _ _ _ _ _ P2). rewrite El. exact Hx.
      * intros o Ho. apply Hlv. apply (vOl _ _ _ _ I1). apply (pOl _ _ _ _ _ P2). apply (vOl _ _ _ _ I2). exact Ho.
Qed.

Lemma init_top : top init.
Proof. constructor; cbn; try discriminate; try contradiction; try constructor; try tauto; congruence. Qed.

Lemma refs_nil s o : refs [] s o = holders s o.
Proof. unfold refs, holders. f_equal. Qed.

Lemma NoDup_mem_map o n : NoDup (map (Mem o) (seq 0 n)).
Proof.
  assert (H := seq_NoDup n 0). induction H; cbn; constructor; [|assumption].
  intros Q. apply in_map_iff in Q. destruct Q as (y & Q1 & Q2). injection Q1 as ->. contradiction.
Qed.
Lemma NoDup_app_intro {A} (a b : list A) : NoDup a -> NoDup b -> (forall x, In x a -> ~ In x b) -> NoDup (a ++ b).
Proof.
  induction 1; intros Hb Hd; cbn; [exact Hb|]. constructor.
  - rewrite in_app_iff. intros [H1|H1]; [contradiction|]. apply (Hd x); [left; reflexivity|exact H1].
  - apply IHNoDup; [exact Hb|]. intros y Hy. apply Hd; right; exact Hy.
Qed.

Lemma filter_none {A} (f : A -> bool) l : (forall x, In x l -> f x = false) -> filter f l = [].
Proof.
  induction l as [|a l IH]; intros H; [reflexivity|]. cbn. rewrite (H a (or_introl eq_refl)). apply IH. intros x Hx. apply H; right; exact Hx.
Qed.

Lemma new_loc_top s r s' : top s -> new_loc s r = Ok s' -> top s' /\ In (Root r) (locs s') /\ ptr s' (Root r) = None /\ objs s' = objs s /\
  locs s' = Root r :: locs s /\ (forall x, x <> Root r -> ptr s' x = ptr s x).
Proof.
  intros [A1 A2 A3 A4 A5 A6 A7 A8 A9]. unfold new_loc. destruct (has_loc s (Root r)) eqn:H; [discriminate|]. intros Q; injection Q as <-.
  assert (Hn : ~ In (Root r) (locs s)) by (rewrite <- has_loc_true; congruence).
  split; [|cbn [locs ptr objs]; split; [left; reflexivity|]; split; [destruct (loc_eq_dec (Root r) (Root r)); congruence|]; split; [reflexivity|];
           split; [reflexivity|]; intros x Hx; destruct (loc_eq_dec x (Root r)); congruence].
  constructor; cbn [objs olist locs ptr]; auto.
  - constructor; assumption.
  - intros l o Hl _ Hp. destruct (loc_eq_dec l (Root r)); [discriminate|]. destruct Hl as [Hl|Hl]; [congruence|]. eapply A4; eauto.
  - intros o ob Ho. rewrite (A5 o ob Ho). f_equal. f_equal. unfold refs. cbn [locs ptr filter].
    assert (Q : points (fun x => if loc_eq_dec x (Root r) then None else ptr s x) o (Root r) = false)
      by (unfold points; destruct (loc_eq_dec (Root r) (Root r)); congruence).
    rewrite Q. rewrite andb_false_r. f_equal. apply filter_ext_in. intros x Hx. f_equal. unfold points.
    destruct (loc_eq_dec x (Root r)); [subst; contradiction|reflexivity].
  - intros o ob k Ho Hn' Hk. right. eapply A6; eauto.
  - intros o k [Hx|Hx]; [discriminate|apply A7; exact Hx].
Qed.

Lemma onew_top s o n s' : top s -> step s (ONew o n) = Ok s' -> top s'.
Proof.
  intros [A1 A2 A3 A4 A5 A6 A7 A8 A9]. cbn [step]. destruct (objs s o) eqn:Eo; [discriminate|]. intros Q; injection Q as <-.
  assert (Hm : forall k, ~ In (Mem o k) (locs s)) by (intros k H; destruct (A7 o k H) as (ob & ? & _); congruence).
  assert (Hnp : forall l, In l (locs s) -> ptr s l <> Some o) by (intros l H H2; destruct (A4 l o H (fun x => x) H2) as (ob & ? & _); congruence).
  constructor; cbn [objs olist locs ptr].
  - apply NoDup_app_intro; [apply NoDup_mem_map|exact A1|]. intros x Hx. apply in_map_iff in Hx. destruct Hx as (k & <- & _). apply Hm.
  - constructor; [|exact A2]. rewrite A3. congruence.
  - intros x. destruct (Nat.eqb x o) eqn:Q.
    + apply Nat.eqb_eq in Q; subst x. split; [discriminate|left; reflexivity].
    + apply Nat.eqb_neq in Q. rewrite <- A3. cbn [In]. split; [intros [H|H]; [congruence|exact H]|auto].
  - intros l x Hl _ Hp. apply in_app_or in Hl. destruct Hl as [Hl|Hl].
    + apply in_map_iff in Hl. destruct Hl as (k & <- & _). rewrite Nat.eqb_refl in Hp. discriminate.
    + assert (Hp' : ptr s l = Some x).
      { destruct l as [r|a k]; [exact Hp|]. destruct (Nat.eqb a o); [discriminate|exact Hp]. }
      destruct (A4 l x Hl (fun x => x) Hp') as (xb & Q1 & Q2). destruct (Nat.eqb x o) eqn:Q; [|eauto].
      apply Nat.eqb_eq in Q; subst x. congruence.
  - intros x xb Hx.
    assert (R : refs [] (mkSt (fun y => if Nat.eqb y o then Some (mkObj 0 n false) else objs s y) (o :: olist s) (map (Mem o) (seq 0 n) ++ locs s)
        (fun y => match y with Mem a k => if Nat.eqb a o then None else ptr s y | Root _ => ptr s y end)) x = refs [] s x).
    { unfold refs. cbn [locs ptr]. rewrite filter_app. rewrite app_length.
      rewrite (filter_none _ (map (Mem o) (seq 0 n))).
      - cbn [length Nat.add]. f_equal. apply filter_ext_in. intros y Hy. f_equal. unfold points. destruct y as [r|a k]; [reflexivity|].
        destruct (Nat.eqb a o) eqn:Q; [|reflexivity]. apply Nat.eqb_eq in Q; subst a. destruct (Hm k Hy).
      - intros y Hy. apply in_map_iff in Hy. destruct Hy as (k & <- & _). unfold points. rewrite Nat.eqb_refl. apply andb_false_r. }
    rewrite R. destruct (Nat.eqb x o) eqn:Q; [|apply A5; exact Hx]. apply Nat.eqb_eq in Q; subst x. injection Hx as <-. cbn [cnt].
    assert (Z0 : refs [] s o = 0).
    { unfold refs. rewrite filter_none; [reflexivity|]. intros y Hy. destruct (points (ptr s) o y) eqn:Q; [|apply andb_false_r].
      apply points_true in Q. destruct (Hnp y Hy Q). }
    rewrite Z0. reflexivity.
  - intros x xb k Hx _ Hk. apply in_or_app. destruct (Nat.eqb x o) eqn:Q.
    + apply Nat.eqb_eq in Q; subst x. injection Hx as <-. left. apply in_map. apply in_seq. cbn [slots] in Hk. lia.
    + right. eapply A6; eauto.
  - intros x k Hx. apply in_app_or in Hx. destruct Hx as [Hx|Hx].
    + apply in_map_iff in Hx. destruct Hx as (j & Hj & Hs). injection Hj as <- ->. rewrite Nat.eqb_refl. apply in_seq in Hs.
      eexists; split; [reflexivity|]. cbn [slots]. lia.
    + destruct (Nat.eqb x o) eqn:Q; [|apply A7; exact Hx]. apply Nat.eqb_eq in Q; subst x. destruct (Hm k Hx).
  - intros x xb [].
  - intros x xb Hx _ Hz. destruct (Nat.eqb x o) eqn:Q; [injection Hx as <-; reflexivity|eapply A9; eauto].
Qed.

Lemma step_ok s o : top s -> assigns_reachable s o -> step s o = BadCall \/ exists s', step s o = Ok s' /\ top s'.
Proof.
  intros I Ha. destruct o as [o n|r|r src|r o|r|l o|l src].
  - destruct (step s (ONew o n)) as [s'| |] eqn:E; [right; exists s'; split; [reflexivity|eapply onew_top; eassumption]| |left; reflexivity].
    exfalso. cbn in E. destruct (objs s o); discriminate.
  - cbn [step]. destruct (new_loc s r) as [s'| |] eqn:E; [right; exists s'; split; [reflexivity|eapply new_loc_top; eassumption]| |left; reflexivity].
    unfold new_loc in E. destruct (has_loc s (Root r)); discriminate.
  - cbn [step]. destruct (has_loc s src) eqn:Hs; [|left; reflexivity]. apply has_loc_true in Hs.
    destruct (new_loc s r) as [s1| |] eqn:E; [|unfold new_loc in E; destruct (has_loc s (Root r)); discriminate|left; reflexivity].
    right. cbn [bind]. destruct (new_loc_top s r s1 I E) as (I1 & Hin & Hp & Ho & _).
    destruct (set_from_raw_ok s1 (Root r) (ptr s src) I1 Hin) as (s2 & R & I2 & _); [discriminate| |eauto].
    unfold obj_alive. destruct (ptr s src) as [x|] eqn:Ep; [|reflexivity]. rewrite Ho.
    destruct (vPtr _ _ _ _ I src x Hs (fun x => x) Ep) as (ob & -> & _). reflexivity.
  - cbn [step]. destruct (obj_alive s o) eqn:Hs; [|left; reflexivity].
    destruct (new_loc s r) as [s1| |] eqn:E; [|unfold new_loc in E; destruct (has_loc s (Root r)); discriminate|left; reflexivity].
    right. cbn [bind]. destruct (new_loc_top s r s1 I E) as (I1 & Hin & Hp & Ho & _).
    destruct (set_from_raw_ok s1 (Root r) o I1 Hin) as (s2 & R & I2 & _); [discriminate| |eauto].
    unfold obj_alive in *. rewrite Ho. exact Hs.
  - cbn [step]. destruct (has_loc s (Root r)) eqn:Hs; [|left; reflexivity]. apply has_loc_true in Hs. right.
    destruct (release_ok X0 (S (length (olist s))) [] [] s (Root r) I Hs) as (s2 & R2 & I2 & P2).
    + intros [].
    + intros a k [H|[]]. discriminate.
    + rewrite live_not_nil. lia.
    + rewrite R2. cbn [bind]. eexists. split; [reflexivity|]. apply Inv_drop; [exact I2|apply (pRoot _ _ _ _ _ P2); exact Hs|intros []|exact Logic.I].
  - cbn [step]. destruct (has_loc s l) eqn:Hs; [|left; reflexivity]. apply has_loc_true in Hs. cbn [andb].
    destruct (obj_alive s o) eqn:Hal; [|left; reflexivity]. right.
    destruct (set_from_raw_ok s l o I Hs) as (s2 & R & I2 & _); [|exact Hal|eauto].
    intros a k ->. apply reach_iff; [exact I|exact Ha].
  - cbn [step]. destruct (has_loc s l) eqn:Hs; [|left; reflexivity]. apply has_loc_true in Hs. cbn [andb].
    destruct (has_loc s src) eqn:Hsrc; [|left; reflexivity]. apply has_loc_true in Hsrc. right.
    destruct (set_from_raw_ok s l (ptr s src) I Hs) as (s2 & R & I2 & _); [| |eauto].
    + intros a k ->. apply reach_iff; [exact I|exact Ha].
    + unfold obj_alive. destruct (ptr s src) as [x|] eqn:Ep; [|reflexivity].
      destruct (vPtr _ _ _ _ I src x Hsrc (fun x => x) Ep) as (ob & -> & _). reflexivity.
Qed.

Lemma run_app s a b : run s (a ++ b) = bind (run s a) (fun s1 => run s1 b).
Proof. revert s. induction a as [|o a IH]; intros s; [reflexivity|]. cbn [app run]. destruct (step s o); cbn [bind]; auto. Qed.

Lemma run_ok ops : disciplined ops -> run init ops = BadCall \/ exists s, run init ops = Ok s /\ top s.
Proof.
  induction ops as [|o ops IH] using rev_ind; intros Hd.
  - right. exists init. split; [reflexivity|apply init_top].
  - assert (Hd' : disciplined ops).
    { intros pre x post s E. apply (Hd pre x (post ++ [o]) s). rewrite E. rewrite <- app_assoc. reflexivity. }
    rewrite run_app. destruct (IH Hd') as [E|(s & E & I)]; rewrite E; cbn [bind]; [left; reflexivity|].
    assert (Ha : assigns_reachable s o) by (apply (Hd ops o [] s); [reflexivity|exact E]).
    cbn [run]. destruct (step_ok s o I Ha) as [Q|(s' & Q & I')]; rewrite Q; cbn [bind]; [left; reflexivity|right; eauto].
Qed.

Lemma no_ub ops : disciplined ops -> run init ops <> UB.
Proof. intros H. destruct (run_ok ops H) as [E|(s & E & _)]; rewrite E; discriminate. Qed.

Lemma run_top ops s : disciplined ops -> run init ops = Ok s -> top s.
Proof. intros H E. destruct (run_ok ops H) as [E2|(s2 & E2 & I)]; [congruence|]. congruence. Qed.

Lemma holders_pos s o : 0 < holders s o <-> exists l, live_ptr s l /\ ptr s l = Some o.
Proof.
  rewrite <- refs_nil. split.
  - unfold refs. intros H. destruct (filter _ (locs s)) as [|l L] eqn:E; [cbn in H; lia|].
    assert (Hl : In l (filter (fun l => negb (inb l []) && points (ptr s) o l) (locs s))) by (rewrite E; left; reflexivity).
    apply filter_In in Hl. destruct Hl as (H1 & H2). apply andb_prop in H2. destruct H2 as (_ & H2). apply points_true in H2. exists l; auto.
  - intros (l & H1 & H2). apply (refs_pos [] s l o H1); [intros []|exact H2].
Qed.

Lemma top_count s o ob : top s -> objs s o = Some ob -> cnt ob = Z.of_nat (holders s o).
Proof. intros I H. rewrite (vCnt _ _ _ _ I o ob H). rewrite refs_nil. unfold X0. f_equal. lia. Qed.

Lemma top_exact s o : top s -> ((exists l, live_ptr s l /\ ptr s l = Some o) <-> was_owned s o).
Proof.
  intros I. split.
  - intros (l & H1 & H2). exact (vPtr _ _ _ _ I l o H1 (fun x => x) H2).
  - intros (ob & E & Ow). apply holders_pos. pose proof (top_count s o ob I E) as C.
    destruct (Z.eq_dec (cnt ob) 0) as [Z0|Z0]; [|lia]. pose proof (vOwn _ _ _ _ I o ob E (fun x => x) Z0). congruence.
Qed.

Lemma top_reach s o : top s -> acyclic s -> live s o -> reachable s o.
Proof.
  intros I (rank & Hr). remember (rank o) as n eqn:En. revert o En. induction n as [n IH] using lt_wf_ind. intros o En Ho.
  unfold live in Ho. destruct (objs s o) as [ob|] eqn:E; [|congruence]. destruct (owned ob) eqn:Ow.
  - assert (W : was_owned s o) by (exists ob; auto). apply (top_exact s o I) in W. destruct W as (l & H1 & H2).
    destruct l as [r|a k]; [eapply via_root; eauto|]. eapply via_member; [|exact H1|exact H2].
    apply (IH (rank a)); [subst n; eapply Hr; eauto|reflexivity|]. destruct (vMem2 _ _ _ _ I a k H1) as (ab & Q & _). unfold live; congruence.
  - apply via_new; [unfold live; congruence|]. intros (ob' & Q1 & Q2). congruence.
Qed.

Lemma assign_effect ops s l rhs s' : disciplined ops -> run init ops = Ok s -> assigns_reachable s (AssignRaw l rhs) ->
  step s (AssignRaw l rhs) = Ok s' -> eff s s' l rhs.
Proof.
  intros Hd Hr Ha Hs. pose proof (run_top ops s Hd Hr) as I. cbn [step] in Hs.
  destruct (has_loc s l) eqn:Hl; [|discriminate]. destruct (obj_alive s rhs) eqn:Hal; [|discriminate]. cbn [andb] in Hs.
  apply has_loc_true in Hl. destruct (set_from_raw_ok s l rhs I Hl) as (s2 & R & _ & F); [|exact Hal|congruence].
  intros a k ->. apply reach_iff; [exact I|exact Ha].
Qed.
