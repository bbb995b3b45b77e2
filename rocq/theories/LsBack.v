(** Proofs about the backtracking line search. *)
From Coq Require Import List Bool ZArith Reals Lra Lia.
From Verif Require Import Num FilterModel ConvModel LsModel LsSpec LsProofs.
Import ListNotations.
Set Implicit Arguments.
Local Open Scope Z_scope.

(** simplification of the projections of updated states *)
Ltac sred :=
  cbn [with_acc with_curr with_wd with_soft with_flags with_accpoint with_mu with_short with_inf b_reset stop_wd start_wd
       curr in_wd wd_iterate wd_delta wd_trial_iter wd_short wd_alpha_test in_soft soft_counter rigorous skipped tiny_last
       fallback acc_iterate acc_iter last_mu succ_short expect_inf inf_ctol start_resto lsa fst snd] in *.
Ltac sredg :=
  cbn [with_acc with_curr with_wd with_soft with_flags with_accpoint with_mu with_short with_inf b_reset stop_wd start_wd
       curr in_wd wd_iterate wd_delta wd_trial_iter wd_short wd_alpha_test in_soft soft_counter rigorous skipped tiny_last
       fallback acc_iterate acc_iter last_mu succ_short expect_inf inf_ctol start_resto lsa fst snd].

Section B.
Variables (pw : num -> num -> num) (log10 : num -> num) (ao : aopts) (bo : bopts) (I D : Type).
Notation check := (a_check pw log10 ao).
Notation bls := (@bls I D).
Notation env := (@env I D).
Notation rule := (rule_b pw log10 ao).

(** same decisions (without the watchdog's values) *)
Definition decides (a a' : acc) : Prop :=
  ref_theta a' = ref_theta a /\ ref_barr a' = ref_barr a /\ slope (ref_theta a') (ref_gbd a') = slope (ref_theta a) (ref_gbd a) /\
  eff_tmax ao a' = eff_tmax ao a /\ eff_tmin ao a' = eff_tmin ao a /\ flt a' = flt a.
Lemma decides_refl a : decides a a. Proof. unfold decides; auto 8. Qed.
Lemma decides_trans a b c : decides a b -> decides b c -> decides a c.
Proof. unfold decides. intros (A1&A2&A3&A4&A5&A6) (B1&B2&B3&B4&B5&B6). repeat split; congruence. Qed.
Lemma alike_decides a a' : alike ao a a' -> decides a a'.
Proof. intros (A1&A2&A3&A4&A5&A6&_). unfold decides; auto 8. Qed.
Lemma rule_decides a a' al th ba : decides a a' -> rule al th ba a' = rule al th ba a.
Proof.
  intros (A1&A2&A3&A4&A5&A6). unfold rule_b, first_b, ftype_b, acceptable_to_iterate, acceptable_to_filter.
  rewrite A3, A1, A2, A4, A5, A6. reflexivity.
Qed.

(** [accepted e p al a]: the point was evaluated and satisfies the rule *)
Definition accepted (e : env) (p : I) (al : num) (a : acc) : Prop :=
  exists th ba, e_theta e p = Some th /\ e_barr e p = Some ba /\ rule al th ba a = true.
Lemma accepted_decides e p al a a' : decides a a' -> accepted e p al a' -> accepted e p al a.
Proof. intros H (th & ba & E1 & E2 & R). exists th, ba. rewrite (rule_decides al th ba H) in R. auto. Qed.
Lemma accepted_alike e p al a a' : alike ao a a' -> accepted e p al a' -> accepted e p al a.
Proof. intros H. apply accepted_decides, alike_decides, H. Qed.

(** a check, by cases *)
Lemma check_cases al p e a a' r : check al (e_theta e p) (e_barr e p) a = (a', r) ->
  (exists f, r = Some (true, f) /\ accepted e p al a) \/ ((forall f, r <> Some (true, f)) /\ alike ao a a').
Proof.
  intros H. destruct r as [[[] f]|].
  - left. exists f. split; [reflexivity|]. destruct (check_accept pw log10 ao al (e_theta e p) (e_barr e p) a (f := f)) as (t & b & E1 & E2 & R).
    { rewrite H. reflexivity. }
    exists t, b; auto.
  - right. split; [intros g; congruence|]. pose proof (check_alike pw log10 ao al (e_theta e p) (e_barr e p) a) as C. rewrite H in C. apply C. intros g; cbn; congruence.
  - right. split; [intros g; congruence|]. pose proof (check_alike pw log10 ao al (e_theta e p) (e_barr e p) a) as C. rewrite H in C. apply C. intros g; cbn; congruence.
Qed.

(** second order correction *)
Lemma soc_spec e p d al : forall fuel k th thold a a' r,
  soc_loop pw log10 ao e p d al fuel k th thold a = (a', r) ->
  match r with
  | None => alike ao a a'
  | Some (al', p', d') => accepted e p' al a /\ exists j, (k <= j < k + fuel)%nat /\ e_soc e p d al j = SocTrial al' p' d'
  end.
Proof.
  induction fuel as [|fuel IH]; intros k th thold a a' r H; cbn [soc_loop] in H.
  - injection H as <- <-. apply alike_refl.
  - destruct (Nat.eqb k 0 || nle th (nmul (a_kappa_soc ao) thold)); [|injection H as <- <-; apply alike_refl].
    destruct (e_soc e p d al k) as [|al' p' d'] eqn:ES; [injection H as <- <-; apply alike_refl|].
    destruct (check al (e_theta e p') (e_barr e p') a) as [a1 r1] eqn:EC.
    destruct (check_cases _ _ _ _ EC) as [(f & -> & A)|(N & A)].
    + injection H as <- <-. split; [exact A|]. exists k. split; [lia|exact ES].
    + destruct r1 as [[[] f]|].
      * exfalso. eapply N; reflexivity.
      * apply IH in H. destruct r as [[[al1 p1] d1]|].
        -- destruct H as (H & j & J1 & J2). split; [eapply accepted_alike; eassumption|]. exists j. split; [lia|exact J2].
        -- eapply alike_trans; eassumption.
      * injection H as <- <-. exact A.
Qed.

(** ways in which DoBacktrackingLineSearch can end, seen from state [s] *)
Inductive bt_end (e : env) (s : bls) (s' : bls) (r : @bres I D) : Prop :=
| BTFail : r_accept r = false -> r_forced r = false -> s' = with_acc s (lsa s') -> alike ao (lsa s) (lsa s') -> bt_end e s s' r
| BTForced : r_accept r = true -> r_forced r = true -> (exists a, s' = b_reset (with_acc s a)) ->
    (exists th ba, e_theta e (r_point r) = Some th /\ e_barr e (r_point r) = Some ba) ->
    (b_every bo = true \/ 0 <= b_after bo <= r_steps r \/ (b_after bo <> -1 /\ b_after bo <= r_steps r)) -> bt_end e s s' r
| BTRule : r_accept r = true -> r_forced r = false -> s' = with_acc s (lsa s') ->
    accepted e (r_point r) (r_test r) (lsa s) -> bt_end e s s' r.

Lemma with_acc_same (s : bls) : s = with_acc s (lsa s).
Proof. destruct s; reflexivity. Qed.
Lemma with_acc_twice (s : bls) a b : with_acc (with_acc s a) b = with_acc s b.
Proof. reflexivity. Qed.

Lemma bt_end_step e s a s' r : alike ao (lsa s) a -> bt_end e (with_acc s a) s' r -> bt_end e s s' r.
Proof.
  intros A [H1 H2 H3 H4|H1 H2 H3 H4 H5|H1 H2 H3 H4].
  - apply BTFail; auto. eapply alike_trans; eassumption.
  - apply BTForced; auto.
  - apply BTRule; auto. eapply accepted_alike; eassumption.
Qed.

Lemma bt_loop_spec e amax amin d : forall fuel alpha test n err last s s' r,
  bt_loop pw log10 ao bo e amax amin d fuel alpha test n err last s = Some (s', r) ->
  bt_end e s s' r /\ (n <= r_steps r) /\ (in_wd s = true -> r_accept r = false -> 0 <= n -> r_steps r = n /\ r_delta r = d).
Proof.
  induction fuel as [|fuel IH]; intros alpha test n err last s s' r H; [discriminate H|].
  cbn [bt_loop] in H.
  destruct (negb (ngt alpha amin || (n =? 0))).
  { injection H as <- <-. cbn [r_steps r_delta r_accept]. repeat split; try lia.
    apply BTFail; auto. apply with_acc_same. apply alike_refl. }
  set (p := e_trial e (curr s) d alpha) in *.
  destruct (b_every bo || (negb (b_after bo =? -1) && (b_after bo <=? n))) eqn:EF.
  - assert (FT : b_every bo = true \/ 0 <= b_after bo <= n \/ (b_after bo <> -1 /\ b_after bo <= n)).
    { apply orb_true_iff in EF. destruct EF as [EF|EF]; [auto|]. apply andb_true_iff in EF. destruct EF as [EF1 EF2].
      apply negb_true_iff in EF1. apply Z.eqb_neq in EF1. apply Z.leb_le in EF2. auto. }
    destruct (e_barr e p) as [ba|] eqn:Eb; [destruct (e_theta e p) as [th|] eqn:Et|].
    + injection H as <- <-. cbn [r_steps r_delta r_accept]. split; [|split; [lia|discriminate]].
      apply BTForced; cbn [r_accept r_forced r_point r_steps]; auto.
      * exists (lsa s). rewrite <- with_acc_same. reflexivity.
      * exists th, ba. auto.
    + destruct (in_wd s) eqn:EW.
      { injection H as <- <-. cbn [r_steps r_delta r_accept]. repeat split; try lia. apply BTFail; auto. apply with_acc_same. apply alike_refl. }
      destruct (expect_inf s && (5 <=? succ_short s)).
      { injection H as <- <-. cbn [r_steps r_delta r_accept]. repeat split; try lia; try discriminate. apply BTFail; auto. apply with_acc_same. apply alike_refl. }
      cbn [negb] in H. apply IH in H. destruct H as (H1 & H2 & H3). split; [exact H1|]. split; [lia|]. discriminate.
    + destruct (in_wd s) eqn:EW.
      { injection H as <- <-. cbn [r_steps r_delta r_accept]. repeat split; try lia. apply BTFail; auto. apply with_acc_same. apply alike_refl. }
      destruct (expect_inf s && (5 <=? succ_short s)).
      { injection H as <- <-. cbn [r_steps r_delta r_accept]. repeat split; try lia; try discriminate. apply BTFail; auto. apply with_acc_same. apply alike_refl. }
      cbn [negb] in H. apply IH in H. destruct H as (H1 & H2 & H3). split; [exact H1|]. split; [lia|]. discriminate.
  - destruct (check alpha (e_theta e p) (e_barr e p) (lsa s)) as [a1 r1] eqn:EC.
    destruct (check_cases _ _ _ _ EC) as [(f & -> & A)|(N & A)].
    + injection H as <- <-. cbn [r_steps r_delta r_accept]. split; [|split; [lia|discriminate]]. apply BTRule; auto.
    + assert (HH : forall s1 err1, s1 = with_acc s a1 ->
        (if in_wd s1 then Some (s1, BRes false p alpha alpha n d err1 false)
         else if expect_inf s1 && (5 <=? succ_short s1) then Some (s1, BRes false p alpha alpha n d err1 false)
         else
        let '(s, soc) :=
          if negb err1 then
            match e_theta e p with
            | Some tth =>
              if neqb alpha amax && nle (e_ctheta e (curr s1)) tth then
                let '(a, r) := try_soc pw log10 ao e (curr s1) d alpha tth (lsa s1) in (with_acc s1 a, r)
              else (s1, None)
            | None => (s1, None)
            end
          else (s1, None) in
        match soc with
        | Some (al', p', d') => Some (s, BRes true p' al' alpha n d' err1 false)
        | None => bt_loop pw log10 ao bo e amax amin d fuel (nmul alpha (b_red bo)) alpha (n + 1) err1 p s
        end) = Some (s', r) ->
        bt_end e s s' r /\ (n <= r_steps r) /\ (in_wd s = true -> r_accept r = false -> 0 <= n -> r_steps r = n /\ r_delta r = d)).
      { clear H. intros s1 err1 -> H.
        change (in_wd (with_acc s a1)) with (in_wd s) in H.
        destruct (in_wd s) eqn:EW.
        { injection H as <- <-. cbn [r_steps r_delta r_accept]. repeat split; try lia. apply BTFail; auto. }
        destruct (expect_inf (with_acc s a1) && (5 <=? succ_short (with_acc s a1))).
        { injection H as <- <-. cbn [r_steps r_delta r_accept]. repeat split; try lia; try discriminate. apply BTFail; auto. }
        assert (SOC : exists a2 soc, (if negb err1 then
            match e_theta e p with
            | Some tth =>
              if neqb alpha amax && nle (e_ctheta e (curr (with_acc s a1))) tth then
                let '(a, r) := try_soc pw log10 ao e (curr (with_acc s a1)) d alpha tth (lsa (with_acc s a1)) in (with_acc (with_acc s a1) a, r)
              else (with_acc s a1, None)
            | None => (with_acc s a1, None)
            end
          else (with_acc s a1, None)) = (with_acc s a2, soc) /\
          match soc with Some (al', p', d') => accepted e p' alpha (lsa s) | None => alike ao (lsa s) a2 end).
        { destruct (negb err1); [|exists a1, None; auto].
          destruct (e_theta e p) as [tth|]; [|exists a1, None; auto].
          destruct (neqb alpha amax && nle (e_ctheta e (curr (with_acc s a1))) tth); [|exists a1, None; auto].
          unfold try_soc. sredg.
          destruct (soc_loop pw log10 ao e (curr s) d alpha (Z.to_nat (a_max_soc ao)) 0 tth nzero a1) as [a2 soc] eqn:ESO.
          apply soc_spec in ESO. exists a2, soc. split; [reflexivity|].
          destruct soc as [[[al' p'] d']|]; [eapply accepted_alike; [eassumption|apply ESO]|eapply alike_trans; eassumption]. }
        destruct SOC as (a2 & soc & E & SP). rewrite E in H. clear E.
        destruct soc as [[[al' p'] d']|].
        - injection H as <- <-. cbn [r_steps r_delta r_accept]. split; [|split; [lia|discriminate]]. apply BTRule; auto.
        - apply IH in H. destruct H as (H1 & H2 & H3). split; [eapply bt_end_step; eassumption|]. split; [lia|discriminate]. }
      destruct r1 as [[[] f]|].
      * exfalso. eapply N; reflexivity.
      * apply (HH (with_acc s a1) err eq_refl). exact H.
      * apply (HH (with_acc s a1) true eq_refl). exact H.
Qed.

(** ** DoBacktrackingLineSearch *)
Inductive do_end (e : env) (s : bls) (s' : bls) (r : @bres I D) : Prop :=
| DOFail : r_accept r = false -> r_forced r = false -> s' = with_acc s (lsa s') -> alike ao (lsa s) (lsa s') -> do_end e s s' r
| DOForced : r_accept r = true -> r_forced r = true -> (exists a, s' = with_soft (with_acc s a) false 0) ->
    (exists th ba, e_theta e (r_point r) = Some th /\ e_barr e (r_point r) = Some ba) ->
    (b_every bo = true \/ (b_after bo <> -1 /\ b_after bo <= r_steps r)) -> do_end e s s' r
| DORule : r_accept r = true -> r_forced r = false -> s' = with_acc s (lsa s') ->
    accepted e (r_point r) (r_test r) (lsa s) -> do_end e s s' r.

Lemma do_bt_spec e fuel skip d n s s' r : do_bt pw log10 ao bo e fuel skip d n s = Some (s', r) -> do_end e s s' r.
Proof.
  intros H. unfold do_bt in H.
  set (amax := e_alpha_max e (curr s) d) in *.
  set (test := if in_wd s then wd_alpha_test s else amax) in *.
  match type of H with context [bt_loop _ _ _ _ e amax ?m] => set (amin := m) in * end.
  clearbody amin.
  assert (C : exists a corr, (if skip then (s, None)
    else match e_corr e (curr s) d with
         | None => (s, None)
         | Some (al', p', d') =>
           match check test (e_theta e p') (e_barr e p') (lsa s) with
           | (a, Some (true, _)) => (with_acc s a, Some (al', p', d'))
           | (a, _) => (with_acc s a, None)
           end
         end) = (with_acc s a, corr) /\
     match corr with Some (al', p', d') => accepted e p' test (lsa s) | None => alike ao (lsa s) a end).
  { destruct skip; [exists (lsa s), None; split; [rewrite <- with_acc_same; reflexivity|apply alike_refl]|].
    destruct (e_corr e (curr s) d) as [[[al' p'] d']|]; [|exists (lsa s), None; split; [rewrite <- with_acc_same; reflexivity|apply alike_refl]].
    destruct (check test (e_theta e p') (e_barr e p') (lsa s)) as [a1 r1] eqn:EC.
    destruct (check_cases _ _ _ _ EC) as [(f & -> & A)|(N & A)].
    - exists a1, (Some (al', p', d')). auto.
    - exists a1, None. split; [|exact A]. destruct r1 as [[[] f]|]; auto. exfalso; eapply N; reflexivity. }
  destruct C as (a & corr & E & C). rewrite E in H. clear E.
  destruct corr as [[[al' p'] d']|].
  - cbn [r_accept] in H. injection H as <- <-. apply DORule; auto.
  - match type of H with context [bt_loop ?a1 ?a2 ?a3 ?a4 ?a5 ?a6 ?a7 ?a8 ?a9 ?a10 ?a11 ?a12 ?a13 ?a14 ?a15] =>
      destruct (bt_loop a1 a2 a3 a4 a5 a6 a7 a8 a9 a10 a11 a12 a13 a14 a15) as [[s1 r1]|] eqn:EL; [|discriminate H] end.
    apply bt_loop_spec in EL. destruct EL as (EL & _ & _).
    apply (bt_end_step C) in EL.
    destruct EL as [H1 H2 H3 H4|H1 H2 H3 H4 H5|H1 H2 H3 H4]; rewrite H1 in H; injection H as <- <-.
    + apply DOFail; auto.
    + apply DOForced; auto.
      * destruct H3 as (a' & ->). eexists. reflexivity.
      * destruct H5 as [H5|[H5|H5]]; auto. right. lia.
    + apply DORule; auto. rewrite H3. reflexivity.
Qed.

(** ** the loop with the watchdog *)
Definition wd_ok (a : acc) : Prop :=
  wd_theta a = ref_theta a /\ wd_barr a = ref_barr a /\ slope (ref_theta a) (wd_gbd a) = slope (ref_theta a) (ref_gbd a).
Lemma wd_ok_alike a a' : alike ao a a' -> wd_ok a -> wd_ok a'.
Proof. intros (A1&A2&A3&A4&A5&A6&A7&A8&A9&_) (B1&B2&B3). unfold wd_ok. rewrite A3, A7, A8, A9, A1, A2. auto. Qed.
Lemma stop_decides a : wd_ok a -> decides a (a_stop_wd a).
Proof.
  intros (B1&B2&B3). unfold decides, a_stop_wd, eff_tmax, eff_tmin. cbn [set_ref ref_theta ref_barr ref_gbd theta_max theta_min flt].
  rewrite B1, B2. repeat split; auto.
Qed.

Definition stored (s : bls) : I := match wd_iterate s with Some p => p | None => curr s end.

(** what stays the same and where the current iterate can be *)
Record frame (s s' : bls) : Prop := {
  f_rig : rigorous s' = rigorous s; f_acc : acc_iterate s' = acc_iterate s; f_mu : last_mu s' = last_mu s;
  f_inf : expect_inf s' = expect_inf s;
  f_soft : (in_soft s' = in_soft s /\ soft_counter s' = soft_counter s) \/ (in_soft s' = false /\ soft_counter s' = 0);
  f_fall : fallback s' = fallback s
}.

Inductive ls_end (e : env) (s : bls) : bls -> @bres I D -> bool -> Prop :=
| LEWatch s' r : in_wd s = true -> r_accept r = false -> r_err r = false -> frame s s' ->
    in_wd s' = true -> curr s' = curr s -> wd_iterate s' = wd_iterate s -> wd_delta s' = wd_delta s -> wd_trial_iter s' = wd_trial_iter s + 1 ->
    wd_trial_iter s + 1 <= b_wd_max bo -> alike ao (lsa s) (lsa s') -> ls_end e s s' r true
| LEForced s' r : r_accept r = true -> r_forced r = true -> frame s s' -> in_wd s' = false ->
    (curr s' = curr s \/ (in_wd s = true /\ curr s' = stored s)) ->
    (exists th ba, e_theta e (r_point r) = Some th /\ e_barr e (r_point r) = Some ba) ->
    (b_every bo = true \/ (b_after bo <> -1 /\ b_after bo <= r_steps r)) -> ls_end e s s' r false
| LERule s' r : r_accept r = true -> r_forced r = false -> frame s s' -> in_wd s' = false ->
    (curr s' = curr s \/ (in_wd s = true /\ curr s' = stored s)) ->
    accepted e (r_point r) (r_test r) (lsa s) -> ls_end e s s' r false
| LEFail s' r : r_accept r = false -> frame s s' -> in_wd s' = false ->
    (in_wd s = false /\ curr s' = curr s \/ in_wd s = true /\ curr s' = stored s) ->
    decides (lsa s) (lsa s') -> (in_soft s' = in_soft s /\ soft_counter s' = soft_counter s) -> ls_end e s s' r false.

Lemma frame_acc s a : frame s (with_acc s a).
Proof. constructor; auto. Qed.
Lemma frame_trans s s' s'' : frame s s' -> frame s' s'' -> frame s s''.
Proof.
  intros [A1 A2 A3 A4 A5 A6] [B1 B2 B3 B4 B5 B6]. constructor; try congruence.
  destruct B5 as [[B5 B7]|B5]; [|auto]. destruct A5 as [[A5 A7]|[A5 A7]]; [left|right]; split; congruence.
Qed.

(** one round without watchdog *)
Lemma ls_plain e fuel rounds skip d n s s' r w : in_wd s = false ->
  ls_loop pw log10 ao bo e fuel (S rounds) skip d n s = Some (s', r, w) -> w = false /\ ls_end e s s' r false.
Proof.
  intros W H. cbn [ls_loop] in H.
  destruct (do_bt pw log10 ao bo e fuel skip d n s) as [[s1 r1]|] eqn:E; [|discriminate H].
  apply do_bt_spec in E. destruct E as [H1 H2 H3 H4|H1 H2 H3 H4 H5|H1 H2 H3 H4].
  - rewrite H3 in H. sred. rewrite W in H. injection H as <- <- <-. split; [reflexivity|].
    apply LEFail; auto. apply frame_acc. apply alike_decides. exact H4.
  - destruct H3 as (a & ->). sred. rewrite W in H. injection H as <- <- <-. split; [reflexivity|].
    apply LEForced; auto. constructor; auto.
  - rewrite H3 in H. sred. rewrite W in H. injection H as <- <- <-. split; [reflexivity|].
    apply LERule; auto. apply frame_acc.
Qed.

Lemma ls_spec e fuel d s s' r w : (in_wd s = true -> wd_ok (lsa s)) ->
  ls_loop pw log10 ao bo e fuel 2 false d 0 s = Some (s', r, w) -> ls_end e s s' r w.
Proof.
  intros K H. destruct (in_wd s) eqn:W.
  2: { apply ls_plain in H; [|exact W]. destruct H as [-> H]. exact H. }
  specialize (K eq_refl).
  remember 1%nat as one eqn:E1. cbn [ls_loop] in H.
  destruct (do_bt pw log10 ao bo e fuel false d 0 s) as [[s1 r1]|] eqn:E; [|discriminate H].
  apply do_bt_spec in E. destruct E as [H1 H2 H3 H4|H1 H2 H3 H4 H5|H1 H2 H3 H4].
  - assert (W1 : in_wd s1 = true) by (rewrite H3; exact W). rewrite W1, H1 in H.
    assert (F1 : frame s s1) by (rewrite H3; apply frame_acc).
    assert (C1 : curr s1 = curr s /\ wd_iterate s1 = wd_iterate s /\ wd_delta s1 = wd_delta s /\ wd_trial_iter s1 = wd_trial_iter s) by (rewrite H3; auto).
    destruct C1 as (C1 & C2 & C3 & C4).
    destruct (r_err r1 || (b_wd_max bo <? wd_trial_iter (with_wd s1 true (wd_iterate s1) (wd_delta s1) (wd_trial_iter s1 + 1) (wd_short s1) (wd_alpha_test s1)))) eqn:EE.
    + rewrite E1 in H. apply ls_plain in H; [|reflexivity]. destruct H as [-> H].
      assert (FS : frame s (stop_wd (with_wd s1 true (wd_iterate s1) (wd_delta s1) (wd_trial_iter s1 + 1) (wd_short s1) (wd_alpha_test s1)))).
      { eapply frame_trans; [exact F1|]. constructor; auto. }
      assert (CS : curr (stop_wd (with_wd s1 true (wd_iterate s1) (wd_delta s1) (wd_trial_iter s1 + 1) (wd_short s1) (wd_alpha_test s1))) = stored s).
      { unfold stored. sredg. rewrite C1, C2. reflexivity. }
      assert (WS : in_wd (stop_wd (with_wd s1 true (wd_iterate s1) (wd_delta s1) (wd_trial_iter s1 + 1) (wd_short s1) (wd_alpha_test s1))) = false) by reflexivity.
      assert (DS : decides (lsa s) (lsa (stop_wd (with_wd s1 true (wd_iterate s1) (wd_delta s1) (wd_trial_iter s1 + 1) (wd_short s1) (wd_alpha_test s1))))).
      { apply decides_trans with (lsa s1); [apply alike_decides; exact H4|]. sredg. apply stop_decides. eapply wd_ok_alike; eassumption. }
      set (s2 := stop_wd _) in *.
      assert (SS : in_soft s2 = in_soft s /\ soft_counter s2 = soft_counter s) by (unfold s2; sredg; rewrite H3; auto).
      clearbody s2.
      inversion H as [| ? ? B1 B2 B3 B4 B5 B6 B7 X1 X2 |? ? B1 B2 B3 B4 B5 B6 X1 X2|? ? B1 B2 B3 B4 B5 B6 X1 X2].
      * apply LEForced; auto. eapply frame_trans; eassumption. right. split; [exact W|]. destruct B5 as [B5|[B5 _]]; congruence.
      * apply LERule; auto. eapply frame_trans; eassumption. right. split; [exact W|]. destruct B5 as [B5|[B5 _]]; congruence. eapply accepted_decides; eassumption.
      * apply LEFail; auto. eapply frame_trans; eassumption. right. split; [exact W|]. destruct B4 as [[_ B4]|[B4 _]]; congruence. eapply decides_trans; eassumption.
        destruct B6, SS. split; congruence.
    + apply orb_false_iff in EE. destruct EE as [EE1 EE2]. injection H as <- <- <-.
      apply Z.ltb_ge in EE2. sred.
      apply LEWatch; auto; sredg; try congruence.
      { constructor; sredg; try apply F1. }

  - destruct H3 as (a & ->). sred. rewrite W in H. rewrite H1 in H. injection H as <- <- <-.
    apply LEForced; auto. constructor; auto.
  - rewrite H3 in H. sred. rewrite W, H1 in H. injection H as <- <- <-. apply LERule; auto. constructor; auto.
Qed.
End B.
