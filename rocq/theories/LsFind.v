(** Proofs about FindAcceptableTrialPoint and sequences of calls. *)
From Coq Require Import List Bool ZArith Reals Lra Lia.
From Verif Require Import Num FilterModel ConvModel LsModel LsSpec LsProofs LsBack.
Import ListNotations.
Set Implicit Arguments.
Local Open Scope Z_scope.

Section F.
Variables (pw : num -> num -> num) (log10 : num -> num) (ao : aopts) (bo : bopts) (I D : Type).
Notation bls := (@bls I D).
Notation env := (@env I D).
Notation accepted := (@accepted pw log10 ao I D).
Notation decides := (decides ao).
Notation find := (find_trial pw log10 ao bo).

(** the watchdog goes on in this call *)
Definition wd_on (e : env) (s : bls) : bool := in_wd s && neqb (last_mu s) (e_mu e).
(** the acceptor with the reference values of this call *)
Definition ref_acc (e : env) (s : bls) : acc :=
  a_init_ls (wd_on e s) (e_ctheta e (curr s)) (e_cbarr e (curr s)) (e_gbd e (curr s) (e_delta e)) (lsa s).

Lemma entry_spec e (s : bls) : let s1 := ft_entry e s in
  curr s1 = curr s /\ lsa s1 = lsa s /\ in_wd s1 = wd_on e s /\ in_soft s1 = in_soft s /\ soft_counter s1 = soft_counter s /\
  rigorous s1 = rigorous s /\ fallback s1 = fallback s /\ expect_inf s1 = expect_inf s /\ start_resto s1 = start_resto s /\
  acc_iterate s1 = (if e_acceptable e (curr s) then Some (curr s) else acc_iterate s) /\
  last_mu s1 = (if neqb (last_mu s) (e_mu e) then last_mu s else e_mu e) /\
  (wd_on e s = true -> wd_iterate s1 = wd_iterate s /\ wd_delta s1 = wd_delta s /\ wd_trial_iter s1 = wd_trial_iter s) /\
  (neqb (last_mu s) (e_mu e) = false -> wd_short s1 = 0) /\ (neqb (last_mu s) (e_mu e) = true -> wd_short s1 = wd_short s).
Proof.
  unfold ft_entry, wd_on. destruct (neqb (last_mu s) (e_mu e)); cbn [negb]; destruct (e_square e); sredg;
    destruct (e_acceptable e (curr s)); sredg; rewrite ?andb_true_r, ?andb_false_r; repeat split; try discriminate.
Qed.

Lemma goto_spec e (s1 : bls) s2 g : ft_goto e s1 = (s2, g) ->
  curr s2 = curr s1 /\ in_wd s2 = in_wd s1 /\ in_soft s2 = in_soft s1 /\ soft_counter s2 = soft_counter s1 /\
  rigorous s2 = rigorous s1 /\ fallback s2 = false /\ expect_inf s2 = expect_inf s1 /\
  acc_iterate s2 = acc_iterate s1 /\ last_mu s2 = last_mu s1 /\
  wd_iterate s2 = wd_iterate s1 /\ wd_delta s2 = wd_delta s1 /\ wd_trial_iter s2 = wd_trial_iter s1 /\ wd_short s2 = wd_short s1 /\
  (fallback s1 = true -> g = true /\ lsa s2 = lsa s1) /\
  (fallback s1 = false -> lsa s2 = a_init_ls (in_wd s1) (e_ctheta e (curr s1)) (e_cbarr e (curr s1)) (e_gbd e (curr s1) (e_delta e)) (lsa s1)).
Proof.
  unfold ft_goto. destruct (fallback s1) eqn:Ef; intros H; injection H as <- <-; sredg; repeat split; try discriminate; auto.
Qed.

Lemma wd_ok_init a t b g : wd_ok (a_init_ls true t b g a).
Proof. unfold wd_ok, a_init_ls. cbn. auto. Qed.
Lemma wd_ok_start (e : env) (s : bls) :
  wd_ok (a_start_wd (e_ctheta e (curr s)) (e_cbarr e (curr s)) (e_gbd e (curr s) (e_delta e)) (a_init_ls false (e_ctheta e (curr s)) (e_cbarr e (curr s)) (e_gbd e (curr s) (e_delta e)) (lsa s))).
Proof. unfold wd_ok. cbn. auto. Qed.

(** the state just before soft restoration or line search *)
Record pre (e : env) (s s4 : bls) (goto tiny : bool) : Prop := {
  p_ref : goto = false -> decides (ref_acc e s) (lsa s4);
  p_wdok : in_wd s4 = true -> wd_ok (lsa s4);
  p_goto : goto = true -> in_wd s4 = false;
  p_wd : in_wd s4 = true ->
    curr s4 = curr s /\
    ((wd_on e s = true /\ wd_iterate s4 = wd_iterate s /\ wd_trial_iter s4 = wd_trial_iter s /\ lsa s4 = ref_acc e s) \/
     (wd_on e s = false /\ wd_iterate s4 = Some (curr s) /\ wd_trial_iter s4 = 0 /\ (in_soft s = false /\ in_wd s = false) /\
      lsa s4 = a_start_wd (e_ctheta e (curr s)) (e_cbarr e (curr s)) (e_gbd e (curr s) (e_delta e)) (ref_acc e s)));
  p_nowd : in_wd s4 = false -> (wd_on e s = false /\ curr s4 = curr s) \/ (wd_on e s = true /\ curr s4 = stored s /\ goto = false /\ tiny = false);
  p_soft : in_soft s4 = in_soft s /\ soft_counter s4 = soft_counter s;
  p_rig : rigorous s4 = rigorous s;
  p_fall : fallback s4 = false;
  p_acc : acc_iterate s4 = (if e_acceptable e (curr s) then Some (curr s) else acc_iterate s);
  p_mu : last_mu s4 = (if neqb (last_mu s) (e_mu e) then last_mu s else e_mu e);
  p_inf : expect_inf s4 = expect_inf s;
  p_tiny : tiny = true -> e_tiny e (curr s) (e_delta e) = true /\ wd_on e s = false /\ goto = false /\ in_wd s4 = false
}.

Lemma watch_spec e s s2 g s3 goto tiny d :
  ft_goto e (ft_entry e s) = (s2, g) -> ft_watch bo e g s2 = (s3, goto, tiny, d) ->
  forall b, pre e s (with_flags s3 (skipped s3) b (fallback s3) (start_resto s3)) goto tiny.
Proof.
  intros HG HW b. pose proof (entry_spec e s) as E. cbv zeta in E.
  destruct E as (E1&E2&E3&E4&E5&E6&E7&E8&E9&E10&E11&E12&E13&E14).
  destruct (goto_spec HG) as (G1&G2&G3&G4&G5&G6&G7&G8&G9&G10&G11&G12&G13&G14&G15).
  unfold ft_watch in HW.
  assert (RA : fallback s = false -> lsa s2 = ref_acc e s).
  { intros F. rewrite G15 by congruence. unfold ref_acc. rewrite E1, E2, E3. reflexivity. }
  destruct (in_wd s2) eqn:W2.
  - assert (ON : wd_on e s = true) by congruence. destruct (E12 ON) as (I1 & I2 & I3).
    destruct (g || negb g && e_tiny e (curr s2) (e_delta e)) eqn:ST; cbn [andb] in HW.
    + (* stopped *)
      assert (NS : ((0 <? b_wd_trigger bo) && negb (in_wd (stop_wd s2)) && negb (g && negb true) && negb (negb g && e_tiny e (curr s2) (e_delta e) && negb true) &&
          negb (in_soft (stop_wd s2)) && negb (expect_inf (stop_wd s2)) && (b_wd_trigger bo <=? wd_short (stop_wd s2))) = false).
      { change (wd_short (stop_wd s2)) with 0. destruct (Z.ltb_spec 0 (b_wd_trigger bo)); [|reflexivity].
        replace (b_wd_trigger bo <=? 0) with false by (symmetry; apply Z.leb_gt; lia). rewrite !andb_false_r. reflexivity. }
      rewrite NS in HW. injection HW as <- <- <- <-.
      cbn [negb]. rewrite !andb_false_r.
      assert (LS : decides (ref_acc e s) (a_stop_wd (lsa s2))).
      { destruct (fallback s) eqn:F.
        - rewrite (proj2 (G14 ltac:(congruence))), E2. unfold ref_acc. rewrite ON. apply decides_refl.
        - rewrite (RA eq_refl). unfold ref_acc. rewrite ON. apply stop_decides, wd_ok_init. }
      constructor; sredg; try discriminate; try congruence.
      * intros _. right. rewrite G10, I1, G1, E1. unfold stored. auto.
      * split; congruence.
    + (* not stopped, watchdog active *)
      apply orb_false_iff in ST. destruct ST as [ST1 ST2]. subst g. cbn [negb andb] in ST2. rewrite ST2 in HW. cbn [negb andb] in HW.
      rewrite W2 in HW. cbn [negb] in HW. rewrite andb_false_r in HW. cbn [andb] in HW. injection HW as <- <- <- <-.
      assert (F : fallback s = false) by (destruct (fallback s); [destruct (G14 ltac:(congruence)); discriminate|reflexivity]).
      pose proof (RA F) as RA'.
      constructor; sredg; try discriminate; try congruence.
      * intros _. rewrite RA'. apply decides_refl.
      * intros _. rewrite RA'. unfold ref_acc. rewrite ON. apply wd_ok_init.
      * intros _. split; [congruence|]. left. repeat split; congruence.
      * split; congruence.
  - assert (ON : wd_on e s = false) by congruence. cbn [andb negb] in HW. rewrite !andb_true_r in HW. rewrite W2 in HW. cbn [negb] in HW.
    destruct ((0 <? b_wd_trigger bo) && true && negb g && negb (negb g && e_tiny e (curr s2) (e_delta e)) && negb (in_soft s2) && negb (expect_inf s2) && (b_wd_trigger bo <=? wd_short s2)) eqn:EW.
    + injection HW as <- <- <- <-.
      rewrite !andb_true_iff in EW. destruct EW as ((((((EW1 & _) & EW3) & EW4) & EW5) & _) & EW6).
      assert (IW : in_wd s = false).
      { unfold wd_on in ON. destruct (in_wd s); [|reflexivity]. cbn [andb] in ON. exfalso. apply Z.ltb_lt in EW1. apply Z.leb_le in EW6.
        rewrite G13, (E13 ON) in EW6. lia. }
      apply negb_true_iff in EW3. apply negb_true_iff in EW5. subst g.
      assert (F : fallback s = false) by (destruct (fallback s); [destruct (G14 ltac:(congruence)); discriminate|reflexivity]).
      pose proof (RA F) as RA'.
      constructor; sredg; try discriminate; try congruence.
      * intros _. rewrite RA'. unfold decides, a_start_wd, eff_tmax, eff_tmin. cbn. auto 8.
      * intros _. rewrite RA', G1, E1. unfold ref_acc. rewrite ON. apply wd_ok_start.
      * intros _. split; [congruence|]. right. rewrite RA', G1, E1. repeat split; congruence.
      * split; congruence.
      * intros T. rewrite T in EW4. discriminate EW4.
    + injection HW as <- <- <- <-. constructor; sredg; try discriminate; try congruence.
      * intros ->. assert (F : fallback s = false) by (destruct (fallback s); [destruct (G14 ltac:(congruence)); discriminate|reflexivity]).
        rewrite (RA F). apply decides_refl.
      * intros _. left. split; congruence.
      * split; congruence.
      * intros T. apply andb_true_iff in T. destruct T as [T1 T2]. apply negb_true_iff in T1. rewrite <- E1, <- G1. auto.
Qed.

(** ** soft restoration step *)
Definition reduces (e : env) (c p : I) : Prop :=
  exists pt pc, e_pd_trial e p = Some pt /\ e_pd_curr e c = Some pc /\ nle pt (nmul (b_soft_factor bo) pc) = true.
Definition evaluated (e : env) (p : I) : Prop := exists th ba, e_theta e p = Some th /\ e_barr e p = Some ba.

Lemma soft_spec e d (s : bls) s' r : try_soft pw log10 ao bo e d s = (s', r) ->
  s' = with_acc s (lsa s') /\
  match r with
  | None => alike ao (lsa s) (lsa s')
  | Some (p, true) => accepted e p nzero (lsa s)
  | Some (p, false) => alike ao (lsa s) (lsa s') /\ reduces e (curr s) p
  end.
Proof.
  unfold try_soft. destruct (neqb (b_soft_factor bo) nzero).
  { intros H; injection H as <- <-. split; [apply with_acc_same|apply alike_refl]. }
  set (p := e_trial e (curr s) d _).
  assert (Z0 : (s, None) = (s', r) -> s' = with_acc s (lsa s') /\ match r with None => alike ao (lsa s) (lsa s') | Some (p, true) => accepted e p nzero (lsa s) | Some (p, false) => alike ao (lsa s) (lsa s') /\ reduces e (curr s) p end).
  { intros H; injection H as <- <-. split; [apply with_acc_same|apply alike_refl]. }
  destruct (e_barr e p) as [ba|] eqn:Eb; [|exact Z0]. destruct (e_theta e p) as [th|] eqn:Et; [|exact Z0]. clear Z0.
  rewrite <- Eb, <- Et.
  destruct (a_check pw log10 ao nzero (e_theta e p) (e_barr e p) (lsa s)) as [a1 r1] eqn:EC.
  apply check_cases in EC. destruct EC as [(f & -> & A)|(N & A)].
  - intros H; injection H as <- <-. split; [reflexivity|exact A].
  - intros H.
    assert (HH : match e_pd_trial e p, e_pd_curr e (curr (with_acc s a1)) with
        | Some pt, Some pc => if nle pt (nmul (b_soft_factor bo) pc) then (with_acc s a1, Some (p, false)) else (with_acc s a1, None)
        | _, _ => (with_acc s a1, None)
        end = (s', r)).
    { destruct r1 as [[[] f]|]; [exfalso; eapply N; reflexivity|exact H|exact H]. }
    clear H. destruct (e_pd_trial e p) as [pt|] eqn:E1; [|injection HH as <- <-; auto].
    destruct (e_pd_curr e (curr (with_acc s a1))) as [pc|] eqn:E2; [|injection HH as <- <-; auto].
    destruct (nle pt (nmul (b_soft_factor bo) pc)) eqn:E3; injection HH as <- <-; auto.
    split; [reflexivity|]. split; [exact A|]. exists pt, pc; auto.
Qed.

(** ** everything about one call *)
Record post (e : env) (s s' : bls) (r : @lsres I) : Prop := {
  o_rule : forall p al, r = LSTrial p (ByRule al) ->
     accepted e p al (ref_acc e s) /\ in_wd s' = false /\ (curr s' = curr s \/ (wd_on e s = true /\ curr s' = stored s));
  o_force : forall p, r = LSTrial p ByForce -> evaluated e p /\ (b_every bo = true \/ b_after bo <> -1) /\ in_wd s' = false /\ (curr s' = curr s \/ (wd_on e s = true /\ curr s' = stored s));
  o_tiny : forall p, r = LSTrial p ByTiny -> evaluated e p /\ e_tiny e (curr s) (e_delta e) = true /\ wd_on e s = false /\ curr s' = curr s /\ in_wd s' = false;
  o_wd : forall p, r = LSTrial p ByWatchdog ->
     in_wd s' = true /\ curr s' = curr s /\ wd_trial_iter s' <= b_wd_max bo /\
     ((wd_on e s = true /\ wd_iterate s' = wd_iterate s /\ wd_trial_iter s' = wd_trial_iter s + 1 /\
       wd_theta (lsa s') = wd_theta (lsa s) /\ wd_barr (lsa s') = wd_barr (lsa s) /\ wd_gbd (lsa s') = wd_gbd (lsa s)) \/
      (in_wd s = false /\ wd_iterate s' = Some (curr s) /\ wd_trial_iter s' = 1 /\
       wd_theta (lsa s') = e_ctheta e (curr s) /\ wd_barr (lsa s') = e_cbarr e (curr s) /\ wd_gbd (lsa s') = e_gbd e (curr s) (e_delta e)));
  o_soft : forall p, r = LSTrial p (BySoft false) ->
     in_soft s' = true /\ reduces e (curr s') p /\
     ((in_soft s = true /\ soft_counter s' = soft_counter s + 1 /\ soft_counter s' <= b_soft_max bo) \/ (in_soft s = false /\ soft_counter s' = soft_counter s));
  o_back : forall p, r = LSTrial p (BySoft true) -> in_soft s' = false /\
     exists a, accepted e p nzero a /\ (decides (ref_acc e s) a \/ (in_soft s = false /\ exists a0, decides (ref_acc e s) a0 /\ decides (augment ao (e_iter e) a0) a));
  o_resto : forall p, r = LSTrial p ByResto -> in_soft s' = false /\ e_resto e (curr s') = RestoPoint p;
  o_acc : acc_iterate s' = (if e_acceptable e (curr s) then Some (curr s) else acc_iterate s);
  o_mu : last_mu s' = (if neqb (last_mu s) (e_mu e) then last_mu s else e_mu e);
  o_throw : r = LSThrow EX_ACCEPTABLE_POINT_REACHED -> (forall c, e_resto e c <> RestoThrow EX_ACCEPTABLE_POINT_REACHED) ->
     e_acceptable e (curr s') = true \/ acc_iterate s' = Some (curr s');
  o_nowd : (forall p, r <> LSTrial p ByWatchdog) -> r <> LSLoop -> r <> LSThrow EX_STEP_COMPUTATION_FAILED ->
     (in_soft s = true -> wd_on e s = true -> False) -> in_wd s' = false;
  o_soft0 : (in_soft s = false -> soft_counter s = 0) -> (in_soft s' = false -> soft_counter s' = 0);
  o_excl : (in_soft s = true -> in_wd s = true -> False) -> (in_soft s' = true -> in_wd s' = true -> False);
  o_softn : 0 <= soft_counter s -> 0 <= soft_counter s';
  o_curr : curr s' = curr s \/ (wd_on e s = true /\ curr s' = stored s) \/ acc_iterate s' = Some (curr s');
  o_end : wd_on e s = true -> in_soft s = false -> (forall p, r <> LSTrial p ByWatchdog) -> r <> LSLoop -> r <> LSThrow EX_STEP_COMPUTATION_FAILED ->
     (exists p, r = LSTrial p ByForce \/ exists al, r = LSTrial p (ByRule al)) \/ curr s' = stored s \/ acc_iterate s' = Some (curr s')
}.

Lemma frame_simple (s s' : bls) : frame s s' -> rigorous s' = rigorous s /\ acc_iterate s' = acc_iterate s /\ last_mu s' = last_mu s.
Proof. intros [A1 A2 A3 _ _ _]. auto. Qed.

(** the parts of [ft_done] *)
Lemma done_spec e tiny n (s : bls) : let s' := ft_done e tiny n s in
  curr s' = curr s /\ lsa s' = lsa s /\ in_wd s' = in_wd s /\ in_soft s' = in_soft s /\ soft_counter s' = soft_counter s /\
  acc_iterate s' = acc_iterate s /\ last_mu s' = last_mu s /\ wd_iterate s' = wd_iterate s /\ wd_trial_iter s' = wd_trial_iter s.
Proof.
  unfold ft_done. destruct (negb (in_soft s) || tiny); [|cbv zeta; auto 12].
  destruct (n =? 0); sredg; destruct (_ && _); sredg; auto 12.
Qed.

Record fpost (e : env) (goto : bool) (s s' : bls) (r : @lsres I) : Prop := {
  q_wd : in_wd s' = in_wd s; q_acc : acc_iterate s' = acc_iterate s; q_mu : last_mu s' = last_mu s;
  q_curr : curr s' = curr s \/ acc_iterate s' = Some (curr s');
  q_kind : (exists x, r = LSThrow x) \/ r = LSSkipped \/ (exists p, r = LSTrial p ByResto) \/ (exists p b, r = LSTrial p (BySoft b));
  q_resto : forall p, r = LSTrial p ByResto -> in_soft s' = false /\ e_resto e (curr s') = RestoPoint p;
  q_softf : forall p, r = LSTrial p (BySoft false) -> in_soft s = false /\ in_soft s' = true /\ soft_counter s' = soft_counter s /\ curr s' = curr s /\ reduces e (curr s') p;
  q_softt : forall p, r = LSTrial p (BySoft true) -> goto = false /\ in_soft s = false /\ in_soft s' = false /\ accepted e p nzero (augment ao (e_iter e) (lsa s));
  q_same : (exists p, r = LSTrial p (BySoft false)) \/ (in_soft s' = in_soft s /\ soft_counter s' = soft_counter s) \/ (in_soft s' = false /\ soft_counter s' = 0);
  q_throw : r = LSThrow EX_ACCEPTABLE_POINT_REACHED -> (forall c, e_resto e c <> RestoThrow EX_ACCEPTABLE_POINT_REACHED) ->
     e_acceptable e (curr s') = true \/ acc_iterate s' = Some (curr s')
}.

Lemma resto_spec e goto (s : bls) s' r : ft_resto ao e s = (s', r) -> fpost e goto s s' r.
Proof.
  unfold ft_resto. set (s1 := if negb (in_soft s) then _ else s).
  assert (S1 : s1 = with_acc s (lsa s1)) by (unfold s1; destruct (negb (in_soft s)); [reflexivity|apply with_acc_same]).
  clearbody s1. intros H.
  assert (B : in_wd s1 = in_wd s /\ acc_iterate s1 = acc_iterate s /\ last_mu s1 = last_mu s /\ curr s1 = curr s /\ in_soft s1 = in_soft s /\ soft_counter s1 = soft_counter s) by (rewrite S1; auto 8).
  clear S1. destruct B as (B1&B2&B3&B4&B5&B6).
  destruct (e_acceptable e (curr s1)) eqn:EA.
  { injection H as <- <-. constructor; try discriminate; eauto. }
  destruct (e_has_resto e); cbn [negb] in H.
  2: { injection H as <- <-. constructor; try discriminate; eauto. }
  destruct (e_almost_feasible e (curr s1)).
  { unfold restore_acc in H. destruct (acc_iterate s1) as [p|] eqn:EP; injection H as <- <-; constructor; sredg; try discriminate; try congruence; eauto. }
  destruct (e_resto e (curr s1)) as [p| |x] eqn:ER.
  - injection H as <- <-. constructor; sredg; try discriminate; eauto 6. intros p' E. injection E as <-. split; [reflexivity|exact ER].
  - unfold restore_acc in H. destruct (acc_iterate s1) as [p|] eqn:EP; injection H as <- <-; constructor; sredg; try discriminate; try congruence; eauto.
  - injection H as <- <-. constructor; try discriminate; eauto. intros E N. exfalso. apply (N (curr s1)). injection E as ->. exact ER.
Qed.

Lemma resto_nosoft e (s : bls) s' r p b : ft_resto ao e s = (s', r) -> r <> LSTrial p (BySoft b).
Proof.
  unfold ft_resto. set (s1 := if negb (in_soft s) then _ else s). clearbody s1.
  destruct (e_acceptable e (curr s1)); [intros H; injection H as <- <-; discriminate|].
  destruct (e_has_resto e); cbn [negb]; [|intros H; injection H as <- <-; discriminate].
  destruct (e_almost_feasible e (curr s1)); [unfold restore_acc; destruct (acc_iterate s1); intros H; injection H as <- <-; discriminate|].
  destruct (e_resto e (curr s1)); [|unfold restore_acc; destruct (acc_iterate s1)|]; intros H; injection H as <- <-; discriminate.
Qed.

Lemma fail_spec e goto d (s : bls) s' r : ft_fail pw log10 ao bo e goto d s = (s', r) -> fpost e goto s s' r.
Proof.
  unfold ft_fail. destruct (rigorous s); cbn [negb].
  2: { intros H; injection H as <- <-. constructor; sredg; try discriminate; eauto. }
  destruct (negb (in_soft s) && negb goto && negb (expect_inf s)) eqn:EC; [|apply resto_spec].
  rewrite !andb_true_iff in EC. destruct EC as ((EC1 & EC2) & _). apply negb_true_iff in EC1. apply negb_true_iff in EC2.
  destruct (try_soft pw log10 ao bo e d (with_acc s (augment ao (e_iter e) (lsa s)))) as [s1 rs] eqn:ES.
  apply soft_spec in ES. destruct ES as (S1 & ES).
  assert (B : in_wd s1 = in_wd s /\ acc_iterate s1 = acc_iterate s /\ last_mu s1 = last_mu s /\ curr s1 = curr s /\ in_soft s1 = in_soft s /\ soft_counter s1 = soft_counter s) by (rewrite S1; auto 8).
  clear S1. destruct B as (B1&B2&B3&B4&B5&B6).
  destruct rs as [[p []]|].
  - intros H; injection H as <- <-. constructor; try discriminate; auto.
    + right; right; right. eauto.
    + intros p' E; injection E as <-. sred. repeat split; try congruence.
  - intros H; injection H as <- <-. destruct ES as (_ & ES). sred. constructor; sredg; try discriminate; auto.
    + right; right; right. eauto.
    + intros p' E; injection E as <-. repeat split; try congruence.
    + left. eauto.
  - intros H. pose proof (fun p b => @resto_nosoft e _ s' r p b H) as NS. apply (@resto_spec e goto) in H. destruct H as [Q1 Q2 Q3 Q4 Q5 Q6 Q7 Q8 Q9 Q10].
    constructor; try congruence; auto.
    all: try congruence.
Qed.

Lemma find_post e fuel (s : bls) s' r : find e fuel s = (s', r) -> post e s s' r.
Proof.
  unfold find_trial. destruct (fallback (ft_entry e s) && negb (e_has_resto e)).
  { intros H; injection H as <- <-. pose proof (entry_spec e s) as E. cbv zeta in E.
    destruct E as (E1&E2&E3&E4&E5&E6&E7&E8&E9&E10&E11&_).
    constructor; try discriminate; try congruence.
    - intros A B. rewrite E5. apply A. congruence.
    - intros A B. rewrite E4 in B. rewrite E3. unfold wd_on. intros C. apply andb_true_iff in C. apply A; tauto.
    - left; congruence. }
  destruct (ft_goto e (ft_entry e s)) as [s2 g] eqn:EG.
  destruct (ft_watch bo e g s2) as [[[s3 goto] tiny2] d] eqn:EW.
  pose proof (watch_spec EG EW (if tiny2 then nlt (e_dynorm e) (b_tiny_y_tol bo) else false)) as P.
  set (s4 := with_flags s3 _ _ _ _) in *.
  change (curr s3) with (curr s4). clearbody s4. clear EG EW s2 s3 g.
  destruct P as [P1 P2 P3 P4 P5 P6 P7 P8 P9 P10 P11 P12].
  set (ptiny := e_trial e (curr s4) (e_delta e) (e_alpha_max e (curr s4) (e_delta e))).
  destruct P6 as [P6 P6'].
  (* exclusion of watchdog and soft restoration *)
  assert (X4 : (in_soft s = true -> in_wd s = true -> False) -> in_soft s4 = true -> in_wd s4 = true -> False).
  { intros A B C. destruct (P4 C) as (_ & [(D1 & _)|(_ & _ & _ & (D1 & _) & _)]); [|congruence].
    unfold wd_on in D1. apply andb_true_iff in D1. apply A; [congruence|tauto]. }
  assert (XW : (in_soft s = true -> wd_on e s = true -> False) -> in_soft s4 = true -> in_wd s4 = false).
  { intros A B. destruct (in_wd s4) eqn:C; [|reflexivity]. exfalso. destruct (P4 eq_refl) as (_ & [(D1 & _)|(_ & _ & _ & (D1 & _) & _)]); [|congruence].
    apply A; congruence. }
  assert (C4 : curr s4 = curr s \/ (wd_on e s = true /\ curr s4 = stored s)).
  { destruct (in_wd s4); [destruct (P4 eq_refl); auto|]. destruct (P5 eq_refl) as [(_ & C)|(C1 & C2 & _)]; auto. }
  destruct (tiny2 && match e_barr e ptiny with Some _ => match e_theta e ptiny with Some _ => true | None => false end | None => false end) eqn:ET.
  - (* tiny step *)
    apply andb_true_iff in ET. destruct ET as [ET1 ET2]. subst tiny2. destruct (P12 eq_refl) as (T1 & T2 & T3 & T4).
    unfold ft_body. intros H; injection H as <- <-.
    pose proof (done_spec e true 0 s4) as DS. cbv zeta in DS. destruct DS as (D1&D2&D3&D4&D5&D6&D7&D8&D9).
    assert (CC : curr s4 = curr s) by (destruct (P5 T4) as [(_ & C)|(C & _)]; congruence).
    constructor; try discriminate; try congruence.
    + intros p E; injection E as <-. repeat split; try congruence.
      destruct (e_barr e ptiny) as [ba|] eqn:Eb; [|discriminate ET2]. destruct (e_theta e ptiny) as [th|] eqn:Et; [|discriminate ET2]. exists th, ba; auto.
    + intros A B. rewrite D5, P6'. apply A; congruence.
    + left; congruence.
  - unfold ft_body. destruct goto.
    { (* straight to restoration *)
      intros H. apply fail_spec in H. destruct H as [Q1 Q2 Q3 Q4 Q5 Q6 Q7 Q8 Q9 Q10].
      assert (W4 : in_wd s4 = false) by (apply P3; reflexivity).
      assert (CC : curr s4 = curr s) by (destruct (P5 W4) as [(_ & C)|(_ & _ & C & _)]; congruence).
      constructor; try congruence; try assumption; try (intros; exfalso; destruct Q5 as [(? & ?)|[?|[(? & ?)|(? & ? & ?)]]]; congruence).
      - intros p E. destruct (Q7 p E) as (X1&X2&X3&X5&X6). repeat split; auto. right; split; congruence.
      - intros p E. destruct (Q8 p E) as (X1&_). discriminate X1.
      - intros A B. destruct Q9 as [(p & E)|[(Y1 & Y2)|(Y1 & Y2)]]; [destruct (Q7 p E) as (_ & X & _); congruence|rewrite Y2, P6'; apply A; congruence|exact Y2].
      - intros A. destruct Q9 as [(p & E)|[(Y1 & Y2)|(Y1 & Y2)]]; [destruct (Q7 p E) as (_ & _ & X & _); lia|lia|lia].
      - destruct Q4 as [Q4|Q4]; [left; congruence|auto].
      - intros ON. destruct (P5 W4) as [(Y & _)|(_ & _ & Y & _)]; congruence. }
    specialize (P1 eq_refl).
    destruct (in_soft s4) eqn:S4.
    + (* soft restoration phase *)
      set (s5 := with_soft s4 _ _) in *.
      assert (B5 : in_wd s5 = in_wd s4 /\ curr s5 = curr s4 /\ lsa s5 = lsa s4 /\ in_soft s5 = true /\ soft_counter s5 = soft_counter s + 1 /\ acc_iterate s5 = acc_iterate s4 /\ last_mu s5 = last_mu s4)
        by (unfold s5; sredg; rewrite P6'; auto 8). clearbody s5. destruct B5 as (B1&B2&B3&B4&B6&B7&B8).
      destruct (Z.ltb_spec (b_soft_max bo) (soft_counter s5)) as [L|L].
      * intros H. apply fail_spec in H. destruct H as [Q1 Q2 Q3 Q4 Q5 Q6 Q7 Q8 Q9 Q10].
        constructor; try congruence; try assumption; try (intros; exfalso; destruct Q5 as [(? & ?)|[?|[(? & ?)|(? & ? & ?)]]]; congruence).
        -- intros p E. destruct (Q7 p E) as (X1&_). congruence.
        -- intros p E. destruct (Q8 p E) as (_&X1&_). congruence.
        -- intros _ _ _ A. rewrite Q1, B1. apply XW; auto.
        -- intros A B. destruct Q9 as [(p & E)|[(Y1 & Y2)|(Y1 & Y2)]]; [destruct (Q7 p E); congruence|congruence|exact Y2].
        -- intros A B C. apply X4; auto; congruence.
        -- intros A. destruct Q9 as [(p & E)|[(Y1 & Y2)|(Y1 & Y2)]]; [destruct (Q7 p E) as (_ & _ & X & _); lia|lia|lia].
        -- destruct Q4 as [Q4|Q4]; [|auto]. destruct C4 as [C4|[C4 C5]]; [left; congruence|right; left; split; congruence].
      * destruct (try_soft pw log10 ao bo e d s5) as [s6 rs] eqn:ES. apply soft_spec in ES. destruct ES as (S6 & ES).
        assert (Z6 : in_wd s6 = in_wd s4 /\ curr s6 = curr s4 /\ in_soft s6 = true /\ soft_counter s6 = soft_counter s + 1 /\ acc_iterate s6 = acc_iterate s4 /\ last_mu s6 = last_mu s4)
          by (rewrite S6; sredg; repeat split; assumption). destruct Z6 as (Z1&Z2&Z3&Z4&Z5&Z6). clear S6.
        destruct rs as [[p []]|].
        -- intros H; injection H as <- <-.
           pose proof (done_spec e false 0 (with_soft s6 false 0)) as DS. cbv zeta in DS. sred. destruct DS as (D1&D2&D3&D4&D5&D6&D7&D8&D9).
           constructor; try discriminate; try congruence.
           ++ intros p' E; injection E as <-. split; [congruence|]. exists (lsa s5). split; [exact ES|]. left. rewrite B3. exact P1.
           ++ intros _ _ _ A. rewrite D3, Z1. apply XW; auto.
           ++ rewrite D5. lia.
           ++ destruct C4 as [C4|[C4 C5]]; [left; congruence|right; left; split; congruence].
        -- intros H; injection H as <- <-.
           pose proof (done_spec e false 0 s6) as DS. cbv zeta in DS. destruct DS as (D1&D2&D3&D4&D5&D6&D7&D8&D9).
           constructor; try discriminate; try congruence.
           ++ intros p' E; injection E as <-. split; [congruence|]. split; [rewrite D1, Z2, <- B2; apply ES|]. left. repeat split; [congruence|congruence|lia].
           ++ intros _ _ _ A. rewrite D3, Z1. apply XW; auto.
           ++ intros A B C. apply X4; auto; congruence.
           ++ rewrite D5. lia.
           ++ destruct C4 as [C4|[C4 C5]]; [left; congruence|right; left; split; congruence].
        -- intros H. apply fail_spec in H. destruct H as [Q1 Q2 Q3 Q4 Q5 Q6 Q7 Q8 Q9 Q10].
           constructor; try congruence; try assumption; try (intros; exfalso; destruct Q5 as [(? & ?)|[?|[(? & ?)|(? & ? & ?)]]]; congruence).
           ++ intros p E. destruct (Q7 p E) as (X1&_). congruence.
           ++ intros p E. destruct (Q8 p E) as (_&X1&_). congruence.
           ++ intros _ _ _ A. rewrite Q1, Z1. apply XW; auto.
           ++ intros A B. destruct Q9 as [(p & E)|[(Y1 & Y2)|(Y1 & Y2)]]; [destruct (Q7 p E); congruence|congruence|exact Y2].
           ++ intros A B C. apply X4; auto; congruence.
           ++ intros A. destruct Q9 as [(p & E)|[(Y1 & Y2)|(Y1 & Y2)]]; [destruct (Q7 p E) as (_ & _ & X & _); lia|lia|lia].
           ++ destruct Q4 as [Q4|Q4]; [|auto]. destruct C4 as [C4|[C4 C5]]; [left; congruence|right; left; split; congruence].
    + (* line search *)
      destruct (ls_loop pw log10 ao bo e fuel 2 false d 0 s4) as [[[s5 r5] w]|] eqn:EL.
      2: { intros H; injection H as <- <-. constructor; try discriminate; try congruence.
        - intros A _. rewrite P6'. apply A. congruence.
        - destruct C4 as [C4|C4]; auto. }
      apply ls_spec in EL; [|exact P2].
      inversion EL as [x y A1 A2 A3 A4 A5 A6 A7 A8 A9 A10 A11 X Y Z|x y A1 A2 A3 A4 A5 A6 A7 X Y Z|x y A1 A2 A3 A4 A5 A6 X Y Z|x y A1 A2 A3 A4 A5 A6 X Y Z]; subst x y w.
      * (* watchdog *)
        intros H; injection H as <- <-. destruct A4 as [F1 F2 F3 F4 F5 F6].
        pose proof (done_spec e false (r_steps r5) s5) as DS. cbv zeta in DS. destruct DS as (D1&D2&D3&D4&D5&D6&D7&D8&D9).
        destruct A11 as (_&_&_&_&_&_&W1&W2&W3&_).
        constructor; try discriminate; try congruence.
        -- intros p E. injection E as <-. destruct (P4 A1) as (Y1 & Y2). split; [congruence|]. split; [congruence|]. split; [lia|].
           destruct Y2 as [(Y2&Y3&Y4&Y5)|(Y2&Y3&Y4&(_&Y6)&Y5)]; [left|right]; repeat split; try congruence; try lia.
           ++ rewrite D2, W1, Y5. unfold ref_acc. rewrite Y2. reflexivity.
           ++ rewrite D2, W2, Y5. unfold ref_acc. rewrite Y2. reflexivity.
           ++ rewrite D2, W3, Y5. unfold ref_acc. rewrite Y2. reflexivity.
           ++ rewrite D2, W1, Y5. reflexivity.
           ++ rewrite D2, W2, Y5. reflexivity.
           ++ rewrite D2, W3, Y5. reflexivity.
        -- intros A B. rewrite D5. destruct F5 as [[F5 F7]|[F5 F7]]; [|exact F7]. rewrite F7, P6'. apply A. congruence.
        -- intros A B C. destruct F5 as [[F5 F7]|[F5 F7]]; congruence.
        -- rewrite D5. destruct F5 as [[F5 F7]|[F5 F7]]; lia.
        -- left. destruct (P4 A1). congruence.
      * (* forced *)
        rewrite A1. intros H; injection H as <- <-. destruct A3 as [F1 F2 F3 F4 F5 F6].
        pose proof (done_spec e false (r_steps r5) s5) as DS. cbv zeta in DS. destruct DS as (D1&D2&D3&D4&D5&D6&D7&D8&D9). rewrite A2.
        assert (CC : curr s5 = curr s \/ (wd_on e s = true /\ curr s5 = stored s)).
        { destruct A5 as [A5|[A5 A5']]; [destruct C4 as [C4|[C4 C5]]; [left; congruence|right; split; congruence]|].
          destruct (P4 A5) as (Y1 & Y2). rewrite A5'. unfold stored. rewrite Y1. destruct Y2 as [(Y2&Y3&_)|(Y2&Y3&_)]; rewrite Y3; auto. }
        constructor; try discriminate; try congruence.
        -- intros p E. injection E as <-. split; [exact A6|]. split; [destruct A7 as [A7|[A7 _]]; auto|]. split; [congruence|]. rewrite D1. exact CC.
        -- intros A B. rewrite D5. destruct F5 as [[F5 F7]|[F5 F7]]; [|exact F7]. rewrite F7, P6'. apply A. congruence.
        -- rewrite D5. destruct F5 as [[F5 F7]|[F5 F7]]; lia.
        -- rewrite D1. destruct CC as [CC|CC]; auto.
        -- intros _ _ _ _ _. left. eauto.
      * (* rule *)
        rewrite A1. intros H; injection H as <- <-. destruct A3 as [F1 F2 F3 F4 F5 F6].
        pose proof (done_spec e false (r_steps r5) s5) as DS. cbv zeta in DS. destruct DS as (D1&D2&D3&D4&D5&D6&D7&D8&D9). rewrite A2.
        assert (CC : curr s5 = curr s \/ (wd_on e s = true /\ curr s5 = stored s)).
        { destruct A5 as [A5|[A5 A5']]; [destruct C4 as [C4|[C4 C5]]; [left; congruence|right; split; congruence]|].
          destruct (P4 A5) as (Y1 & Y2). rewrite A5'. unfold stored. rewrite Y1. destruct Y2 as [(Y2&Y3&_)|(Y2&Y3&_)]; rewrite Y3; auto. }
        constructor; try discriminate; try congruence.
        -- intros p al E. injection E as <- <-. split; [eapply accepted_decides; eassumption|]. split; [congruence|]. rewrite D1. exact CC.
        -- intros A B. rewrite D5. destruct F5 as [[F5 F7]|[F5 F7]]; [|exact F7]. rewrite F7, P6'. apply A. congruence.
        -- rewrite D5. destruct F5 as [[F5 F7]|[F5 F7]]; lia.
        -- rewrite D1. destruct CC as [CC|CC]; auto.
        -- intros _ _ _ _ _. left. eauto.
      * (* failure *)
        rewrite A1. intros H. apply fail_spec in H. destruct H as [Q1 Q2 Q3 Q4 Q5 Q6 Q7 Q8 Q9 Q10].
        destruct A2 as [F1 F2 F3 F4 F5 F6]. destruct A6 as [A6 A6'].
        assert (CC : curr s5 = curr s \/ (wd_on e s = true /\ curr s5 = stored s)).
        { destruct A4 as [[A4 A4']|[A4 A4']]; [destruct C4 as [C4|[C4 C5]]; [left; congruence|right; split; congruence]|].
          destruct (P4 A4) as (Y1 & Y2). rewrite A4'. unfold stored. rewrite Y1. destruct Y2 as [(Y2&Y3&_)|(Y2&Y3&_)]; rewrite Y3; auto. }
        constructor; try congruence; try assumption; try (intros; exfalso; destruct Q5 as [(? & ?)|[?|[(? & ?)|(? & ? & ?)]]]; congruence).
        -- intros p E. destruct (Q7 p E) as (X1&X2&X3&X5&X6). repeat split; auto. right; split; congruence.
        -- intros p E. destruct (Q8 p E) as (X1&X2&X3&X5). split; [exact X3|]. eexists. split; [exact X5|]. right. split; [congruence|].
           exists (lsa s5). split; [eapply decides_trans; eassumption|apply decides_refl].
        -- intros A B. destruct Q9 as [(p & E)|[(Y1 & Y2)|(Y1 & Y2)]]; [destruct (Q7 p E) as (_ & X & _); congruence|rewrite Y2, A6', P6'; apply A; congruence|exact Y2].
        -- intros A. destruct Q9 as [(p & E)|[(Y1 & Y2)|(Y1 & Y2)]]; [destruct (Q7 p E) as (_ & _ & X & _); lia|lia|lia].
        -- destruct Q4 as [Q4|Q4]; [|auto]. rewrite Q4. destruct CC as [CC|CC]; auto.
        -- intros ON _ _ _ _. right. destruct Q4 as [Q4|Q4]; [left|auto]. rewrite Q4. destruct A4 as [[A4 A4']|[A4 A4']].
           ++ destruct (P5 A4) as [(Y & _)|(_ & Y & _)]; congruence.
           ++ destruct (P4 A4) as (Y1 & [(_&Y3&_)|(Y2&_)]); [|congruence]. rewrite A4'. unfold stored. rewrite Y1, Y3. reflexivity.
Qed.
End F.
