(** Sequences of calls of the line search. *)
From Coq Require Import List Bool ZArith Reals Lra Lia.
From Verif Require Import Num FilterModel ConvModel LsModel LsSpec LsProofs LsBack LsFind.
Import ListNotations.
Set Implicit Arguments.
Local Open Scope Z_scope.

Section R.
Variables (pw : num -> num -> num) (log10 : num -> num) (ao : aopts) (bo : bopts) (I D : Type).
Notation bls := (@bls I D).
Notation env := (@env I D).

(** ** the acceptor inside the line search: its state changes only by its own calls *)
Definition reach (a a' : acc) : Prop := exists l, a' = a_run pw log10 ao a l.
Lemma reach_refl a : reach a a. Proof. exists []. reflexivity. Qed.
Lemma reach_trans a b c : reach a b -> reach b c -> reach a c.
Proof.
  intros [l ->] [m ->]. exists (l ++ m). revert a. induction l as [|x l IH]; intros a; [reflexivity|]. cbn [app a_run]. apply IH.
Qed.
Lemma reach_step a c : reach a (fst (a_step pw log10 ao a c)).
Proof. exists [c]. reflexivity. Qed.
Lemma reach_check al th ba a a' r : a_check pw log10 ao al th ba a = (a', r) -> reach a a'.
Proof. intros H. pose proof (reach_step a (ACheck al th ba)) as R. cbn [a_step] in R. rewrite H in R. exact R. Qed.
Lemma reach_update it al ba a : reach a (fst (a_update pw ao it al ba a)).
Proof. pose proof (reach_step a (AUpdate it al ba)) as R. cbn [a_step] in R. destruct (a_update pw ao it al ba a). exact R. Qed.
Lemma reach_reset a : reach a (a_reset a). Proof. apply (reach_step a AReset). Qed.
Lemma reach_init w t b g a : reach a (a_init_ls w t b g a). Proof. apply (reach_step a (AInitLS w t b g)). Qed.
Lemma reach_start t b g a : reach a (a_start_wd t b g a). Proof. apply (reach_step a (AStartWD t b g)). Qed.
Lemma reach_stop a : reach a (a_stop_wd a). Proof. apply (reach_step a AStopWD). Qed.
Lemma reach_augment it a : reach a (augment ao it a). Proof. apply (reach_step a (APrepareResto it)). Qed.

Lemma soc_reach (e : env) p d al : forall fuel k th thold a a' r, soc_loop pw log10 ao e p d al fuel k th thold a = (a', r) -> reach a a'.
Proof.
  induction fuel as [|fuel IH]; intros k th thold a a' r H; cbn [soc_loop] in H.
  - injection H as <- _. apply reach_refl.
  - destruct (_ || _); [|injection H as <- _; apply reach_refl].
    destruct (e_soc e p d al k) as [|al' p' d']; [injection H as <- _; apply reach_refl|].
    destruct (a_check pw log10 ao al (e_theta e p') (e_barr e p') a) as [a1 r1] eqn:E. apply reach_check in E.
    destruct r1 as [[[] f]|]; try (injection H as <- _; exact E). apply IH in H. eapply reach_trans; eassumption.
Qed.

Lemma bt_reach (e : env) amax amin d : forall fuel alpha test n err last (s s' : bls) r,
  bt_loop pw log10 ao bo e amax amin d fuel alpha test n err last s = Some (s', r) -> reach (lsa s) (lsa s').
Proof.
  induction fuel as [|fuel IH]; intros alpha test n err last s s' r H; [discriminate H|].
  cbn [bt_loop] in H. destruct (negb (ngt alpha amin || (n =? 0))); [injection H as <- _; apply reach_refl|].
  set (p := e_trial e (curr s) d alpha) in *. cbv zeta in H.
  match type of H with match ?X with _ => _ end = _ => destruct X as [[[s1 ac] er] fo] eqn:E1 end.
  assert (R1 : reach (lsa s) (lsa s1)).
  { destruct (b_every bo || _).
    - destruct (e_barr e p); [destruct (e_theta e p)|]; injection E1 as <- _ _ _; sredg; try apply reach_refl. apply reach_reset.
    - destruct (a_check pw log10 ao _ _ _ _) as [a1 r1] eqn:EC. apply reach_check in EC.
      destruct r1 as [[b f]|]; injection E1 as <- _ _ _; exact EC. }
  destruct ac; [injection H as <- _; exact R1|].
  destruct (in_wd s1); [injection H as <- _; exact R1|].
  destruct (expect_inf s1 && _); [injection H as <- _; exact R1|].
  match type of H with match ?X with _ => _ end = _ => destruct X as [s2 soc] eqn:E2 end.
  assert (R2 : reach (lsa s1) (lsa s2)).
  { destruct (negb er); [|injection E2 as <- _; apply reach_refl].
    destruct (e_theta e p); [|injection E2 as <- _; apply reach_refl].
    destruct (neqb alpha amax && _); [|injection E2 as <- _; apply reach_refl].
    unfold try_soc in E2. destruct (soc_loop _ _ _ _ _ _ _ _ _ _ _ _) as [a2 r2] eqn:ES. apply soc_reach in ES.
    injection E2 as <- _. exact ES. }
  assert (R := reach_trans R1 R2).
  destruct soc as [[[al' p'] d']|]; [injection H as <- _; exact R|].
  apply IH in H. eapply reach_trans; eassumption.
Qed.

Lemma do_reach (e : env) fuel skip d n (s s' : bls) r : do_bt pw log10 ao bo e fuel skip d n s = Some (s', r) -> reach (lsa s) (lsa s').
Proof.
  unfold do_bt. intros H.
  match type of H with match ?X with _ => _ end = _ => destruct X as [s1 corr] eqn:E1 end.
  assert (R1 : reach (lsa s) (lsa s1)).
  { destruct skip; [injection E1 as <- _; apply reach_refl|].
    destruct (e_corr e (curr s) d) as [[[al' p'] d']|]; [|injection E1 as <- _; apply reach_refl].
    destruct (a_check pw log10 ao _ _ _ _) as [a1 r1] eqn:EC. apply reach_check in EC.
    destruct r1 as [[[] f]|]; injection E1 as <- _; exact EC. }
  match type of H with match ?X with _ => _ end = _ => destruct X as [[s2 r2]|] eqn:E2; [|discriminate H] end.
  assert (R2 : reach (lsa s1) (lsa s2)).
  { destruct corr as [[[al' p'] d']|]; [injection E2 as <- _; apply reach_refl|]. eapply bt_reach; exact E2. }
  assert (R := reach_trans R1 R2).
  destruct (r_accept r2); injection H as <- _; [|exact R]. sredg. eapply reach_trans; [exact R|apply reach_update].
Qed.

Lemma ls_reach (e : env) fuel : forall rounds skip d n (s s' : bls) r w, ls_loop pw log10 ao bo e fuel rounds skip d n s = Some (s', r, w) -> reach (lsa s) (lsa s').
Proof.
  induction rounds as [|k IH]; intros skip d n s s' r w H; [discriminate H|]. cbn [ls_loop] in H.
  destruct (do_bt pw log10 ao bo e fuel skip d n s) as [[s1 r1]|] eqn:E; [|discriminate H]. apply do_reach in E.
  destruct (in_wd s1); [|injection H as <- _ _; exact E].
  destruct (r_accept r1); [injection H as <- _ _; exact E|].
  destruct (_ || _); [|injection H as <- _ _; exact E].
  apply IH in H. eapply reach_trans; [exact E|]. eapply reach_trans; [|exact H]. unfold stop_wd. sredg. apply reach_stop.
Qed.

Lemma soft_reach (e : env) d (s s' : bls) r : try_soft pw log10 ao bo e d s = (s', r) -> reach (lsa s) (lsa s').
Proof.
  unfold try_soft. destruct (neqb _ _); [intros H; injection H as <- _; apply reach_refl|].
  set (p := e_trial e (curr s) d _).
  destruct (e_barr e p) as [ba|]; [|intros H; injection H as <- _; apply reach_refl].
  destruct (e_theta e p) as [th|]; [|intros H; injection H as <- _; apply reach_refl].
  destruct (a_check pw log10 ao _ _ _ _) as [a1 r1] eqn:EC. apply reach_check in EC.
  assert (T : forall q : bls * option (I * bool), match e_pd_trial e p, e_pd_curr e (curr (with_acc s a1)) with
        | Some pt, Some pc => if nle pt (nmul (b_soft_factor bo) pc) then (with_acc s a1, Some (p, false)) else (with_acc s a1, None)
        | _, _ => (with_acc s a1, None)
        end = q -> reach (lsa s) (lsa (fst q))).
  { intros q <-. destruct (e_pd_trial e p); [|exact EC]. destruct (e_pd_curr e _); [|exact EC]. destruct (nle _ _); exact EC. }
  intros H. destruct r1 as [[[] f]|]; [injection H as <- _; exact EC|apply (T _ H)|apply (T _ H)].
Qed.

Lemma resto_reach (e : env) (s s' : bls) r : ft_resto ao e s = (s', r) -> reach (lsa s) (lsa s').
Proof.
  unfold ft_resto. set (s1 := if negb (in_soft s) then _ else s).
  assert (R1 : reach (lsa s) (lsa s1)) by (unfold s1; destruct (negb (in_soft s)); [apply reach_augment|apply reach_refl]).
  clearbody s1. intros H.
  assert (RA : lsa (fst (restore_acc s1)) = lsa s1) by (unfold restore_acc; destruct (acc_iterate s1); reflexivity).
  destruct (e_acceptable e _); [injection H as <- _; exact R1|].
  destruct (negb (e_has_resto e)); [injection H as <- _; exact R1|].
  destruct (e_almost_feasible e _).
  { destruct (restore_acc s1) as [s2 f]. injection H as <- _. cbn [fst] in RA. rewrite RA. exact R1. }
  destruct (e_resto e _); [injection H as <- _; exact R1| |injection H as <- _; exact R1].
  destruct (restore_acc s1) as [s2 f]. injection H as <- _. cbn [fst] in RA. rewrite RA. exact R1.
Qed.

Lemma find_reach (e : env) fuel (s s' : bls) r : find_trial pw log10 ao bo e fuel s = (s', r) -> reach (lsa s) (lsa s').
Proof.
  unfold find_trial. pose proof (entry_spec e s) as E. cbv zeta in E. destruct E as (_ & E2 & _).
  destruct (fallback (ft_entry e s) && negb (e_has_resto e)); [intros H; injection H as <- _; rewrite E2; apply reach_refl|].
  destruct (ft_goto e (ft_entry e s)) as [s2 g] eqn:EG.
  assert (R2 : reach (lsa s) (lsa s2)).
  { rewrite <- E2. unfold ft_goto in EG. destruct (fallback (ft_entry e s)); injection EG as <- _; sredg; [apply reach_refl|apply reach_init]. }
  destruct (ft_watch bo e g s2) as [[[s3 goto] tiny2] d] eqn:EW.
  assert (R3 : reach (lsa s) (lsa s3)).
  { unfold ft_watch in EW. injection EW as <- _ _ _. eapply reach_trans; [exact R2|].
    set (st := in_wd s2 && _).
    assert (R0 : reach (lsa s2) (lsa (if st then stop_wd s2 else s2))) by (destruct st; [unfold stop_wd; sredg; apply reach_stop|apply reach_refl]).
    match goal with |- context [if ?c then start_wd e _ else _] => destruct c end; [|exact R0].
    unfold start_wd at 1. sredg. eapply reach_trans; [exact R0|apply reach_start]. }
  clear R2 EG EW E2.
  match goal with |- context [ft_body _ _ _ _ e fuel goto ?t ?p d ?s] => set (tiny := t); set (pt := p); set (s4 := s) end.
  assert (R4 : reach (lsa s) (lsa s4)) by exact R3. clearbody s4 tiny pt.
  destruct (ft_body pw log10 ao bo e fuel goto tiny pt d s4) as [[[[s5 h] n] d']|] eqn:EB; [|intros H; injection H as <- _; exact R4].
  assert (R5 : reach (lsa s) (lsa s5)).
  { eapply reach_trans; [exact R4|]. unfold ft_body in EB.
    destruct tiny; [injection EB as <- _ _ _; apply reach_refl|]. destruct goto; [injection EB as <- _ _ _; apply reach_refl|].
    destruct (in_soft s4).
    - cbv zeta in EB. destruct (_ <? _); [injection EB as <- _ _ _; apply reach_refl|].
      destruct (try_soft pw log10 ao bo e d _) as [s6 rs] eqn:ES. apply soft_reach in ES. sred.
      destruct rs as [[p []]|]; injection EB as <- _ _ _; exact ES.
    - destruct (ls_loop pw log10 ao bo e fuel 2 false d 0 s4) as [[[s6 r6] w]|] eqn:EL; [|discriminate EB]. apply ls_reach in EL.
      destruct w; [injection EB as <- _ _ _; exact EL|]. destruct (r_accept r6); injection EB as <- _ _ _; exact EL. }
  destruct h as [[p h]|].
  - intros H; injection H as <- _. pose proof (done_spec e tiny n s5) as DS. cbv zeta in DS. destruct DS as (_ & -> & _). exact R5.
  - unfold ft_fail. destruct (negb (rigorous s5)); [intros H; injection H as <- _; exact R5|].
    destruct (negb (in_soft s5) && _ && _).
    + destruct (try_soft pw log10 ao bo e d' _) as [s6 rs] eqn:ES. apply soft_reach in ES. sred.
      assert (R6 : reach (lsa s) (lsa s6)) by (eapply reach_trans; [exact R5|]; eapply reach_trans; [apply reach_augment|exact ES]).
      destruct rs as [[q []]|]; intros H; [injection H as <- _; exact R6|injection H as <- _; exact R6|].
      apply resto_reach in H. eapply reach_trans; eassumption.
    + intros H. apply resto_reach in H. eapply reach_trans; eassumption.
Qed.
End R.

Section H.
Variables (pw : num -> num -> num) (log10 : num -> num) (ao : aopts) (bo : bopts) (I D : Type).
Notation bls := (@bls I D).
Notation env := (@env I D).
Notation b_do := (@LsSpec.b_do pw log10 ao bo I D).
Notation b_hist := (@LsSpec.b_hist pw log10 ao bo I D).
Notation call := (@call I D).
Notation reach := (reach pw log10 ao).

Definition wd_calls (log : list call) : list call := take_while (@watchdog_step I D) log.

(** what holds between the calls *)
Record good (s : bls) (log : list call) : Prop := {
  g_excl : in_soft s = true -> in_wd s = true -> False;
  g_soft0 : in_soft s = false -> soft_counter s = 0;
  g_softn : 0 <= soft_counter s;
  g_nowd : in_wd s = false -> wd_calls log = [];
  g_wd : in_wd s = true -> exists k l, wd_calls log = l ++ [k] /\ Z.of_nat (length (wd_calls log)) = wd_trial_iter s /\ wd_trial_iter s <= b_wd_max bo /\
     wd_iterate s = Some (k_at k) /\ (wd_theta (lsa s), wd_barr (lsa s), wd_gbd (lsa s)) = values_at (k_env k) (k_at k);
  g_acc : forall q, acc_iterate s = Some q -> exists k, In k log /\ k_at k = q /\ e_acceptable (k_env k) q = true;
  g_flt : wf2 (flt (lsa s))
}.

Lemma wf2_step a c : wf2 (flt a) -> wf2 (flt (fst (a_step pw log10 ao a c))).
Proof.
  intros W.
  assert (AUG : forall it a, wf2 (flt a) -> wf2 (flt (augment ao it a))).
  { clear. intros it a W. unfold augment. cbn [set_flt flt].
    destruct (filter_add2 _ _ _ _) as [f|] eqn:E; [|exact W].
    unfold filter_add2, filter_add in E.
    match type of E with match remove_dominated _ ?w with _ => _ end = _ => set (v := w) in * end.
    destruct (remove_dominated (flt a) v) as [r|] eqn:R; [|discriminate E]. injection E as <-.
    apply Forall_app. split; [|repeat constructor].
    clear -W R. revert r R. induction W as [|x l Hx W IH]; intros r R; cbn [remove_dominated] in R.
    - injection R as <-. constructor.
    - destruct (entry_dominated x v) as [dm|]; [|discriminate R].
      destruct (remove_dominated l v) as [q|]; [|discriminate R].
      specialize (IH q eq_refl). destruct dm; injection R as <-; [exact IH|constructor; auto]. }
  destruct c as [| |wd t b g|al th ba|t b g| |it al ba|it].
  - constructor.
  - constructor.
  - destruct wd; exact W.
  - cbn [a_step]. destruct (a_check pw log10 ao al th ba a) as [a' r] eqn:E. cbn [fst].
    unfold a_check in E. destruct th as [th|]; [|injection E as <- _; exact W].
    set (s0 := set_thetas a _ _) in *. assert (W0 : wf2 (flt s0)) by exact W. clearbody s0.
    destruct (ngt _ _ && ngt _ _); [injection E as <- _; exact W0|].
    destruct ba as [ba|]; [|injection E as <- _; exact W0].
    assert (G : exists s1 ft, (if ngt al nzero then is_ftype pw ao al s0 else (s0, false)) = (s1, ft) /\ flt s1 = flt s0).
    { destruct (ngt al nzero); [|eauto]. destruct (is_ftype_eq pw ao al s0) as (s1 & -> & ->). eauto. }
    destruct G as (s1 & ft & G & G1). rewrite G in E. rewrite <- G1 in W0. clear G G1.
    destruct (if ft && _ then _ else _); cbn [negb] in E; [|injection E as <- _; exact W0].
    destruct (acceptable_to_filter ba th s1); cbn [negb] in E; [|injection E as <- _; exact W0].
    destruct (0 <? _); [|injection E as <- _; exact W0].
    destruct (_ <? _); [|injection E as <- _; exact W0].
    destruct (last_rej s1); [|injection E as <- _; exact W0].
    cbn [set_rej succ_rej] in E. destruct (_ <=? _); injection E as <- _; [constructor|exact W0].
  - exact W.
  - exact W.
  - cbn [a_step]. unfold a_update. destruct (is_ftype_eq pw ao al a) as (s1 & -> & ->).
    match goal with |- context [if ?c then _ else _] => destruct c end; cbn [fst]; [|exact W]. apply AUG. exact W.
  - apply AUG. exact W.
Qed.
Lemma wf2_reach a a' : reach a a' -> wf2 (flt a) -> wf2 (flt a').
Proof.
  intros [l ->]. revert a. induction l as [|c l IH]; intros a W; [exact W|]. cbn [a_run]. apply IH. apply wf2_step. exact W.
Qed.

Lemma good_start p start inf a : good (b_initial bo D p start inf a) [].
Proof.
  unfold b_initial. constructor; sredg; try discriminate; auto; try lia. constructor.
Qed.

Lemma good_find e fuel (s : bls) log s' r : good s log -> find_trial pw log10 ao bo e fuel s = (s', r) ->
  goes_on (Call (curr s) e r) = true ->
  good (match r with LSTrial p _ => with_curr s' p | _ => s' end) (Call (curr s) e r :: log).
Proof.
  intros G H O.
  pose proof (@find_reach pw log10 ao bo I D e fuel s s' r H) as RE. apply find_post in H. destruct H as [H1 H2 H3 H4 H5 H6 H7 H8 H9 H10 H11 H12 H13 H15 H14 H16].
  destruct G as [G1 G2 G3 G4 G5 G6 G7].
  assert (SM : forall (P : bls -> Prop), (forall q, P (with_curr s' q)) -> P s' -> P (match r with LSTrial p _ => with_curr s' p | _ => s' end)).
  { intros P A B. destruct r; auto. }
  assert (E : exists q, (match r with LSTrial p _ => with_curr s' p | _ => s' end) = with_curr s' q).
  { destruct r as [p h| | |]; [exists p; reflexivity|exists (curr s'); destruct s'; reflexivity| |]; exists (curr s'); destruct s'; reflexivity. }
  destruct E as [q0 E]. rewrite E. clear E SM.
  assert (NT : r <> LSLoop /\ r <> LSThrow EX_STEP_COMPUTATION_FAILED) by (destruct r; cbn in O; split; congruence).
  constructor; sredg; auto.
  - intros W. unfold wd_calls. cbn [take_while]. unfold watchdog_step. cbn [k_res].
    destruct r as [p []| | |]; try reflexivity. destruct (H4 p eq_refl) as (X & _). congruence.
  - intros W.
    assert (ISW : exists p, r = LSTrial p ByWatchdog).
    { destruct r as [p []| | |]; eauto; exfalso; rewrite H11 in W; try discriminate W; try discriminate; try tauto;
        intros A B; unfold wd_on in B; apply andb_true_iff in B; tauto. }
    destruct ISW as (p & ->). destruct (H4 p eq_refl) as (X1 & X2 & X3 & X4).
    assert (WT : wd_calls (Call (curr s) e (LSTrial p ByWatchdog) :: log) = Call (curr s) e (LSTrial p ByWatchdog) :: wd_calls log) by reflexivity.
    rewrite WT.
    destruct X4 as [(Y1 & Y2 & Y3 & Y4 & Y5 & Y6)|(Y1 & Y2 & Y3 & Y4 & Y5 & Y6)].
    + unfold wd_on in Y1. apply andb_true_iff in Y1. destruct Y1 as [Y1 _].
      destruct (G5 Y1) as (k & l & Z1 & Z2 & Z3 & Z4 & Z5). unfold wd_calls in *.
      exists k, (Call (curr s) e (LSTrial p ByWatchdog) :: l). rewrite Z1 in Z2. rewrite Z1. split; [reflexivity|].
      split; [cbn [length] in *; lia|]. split; [exact X3|]. split; [congruence|]. rewrite Y4, Y5, Y6. exact Z5.
    + rewrite (G4 Y1).
      eexists _, []. split; [reflexivity|]. cbn [k_at k_env length]. split; [lia|]. split; [lia|]. split; [congruence|].
      rewrite Y4, Y5, Y6. reflexivity.
  - intros q Q. rewrite H8 in Q. destruct (e_acceptable e (curr s)) eqn:EA.
    + injection Q as <-. eexists. split; [left; reflexivity|]. auto.
    + destruct (G6 q Q) as (k & K1 & K2). exists k. split; [right; exact K1|exact K2].
  - eapply wf2_reach; eassumption.
Qed.

Lemma good_do (s : bls) log c : good s log -> Forall (fun k => goes_on k = true) (snd (b_do (s, log) c)) -> good (fst (b_do (s, log) c)) (snd (b_do (s, log) c)).
Proof.
  intros G F. destruct c as [e fuel| |b|]; cbn [LsSpec.b_do fst snd b_step] in *.
  - destruct (find_trial pw log10 ao bo e fuel s) as [s' r] eqn:E. cbn [fst snd] in *.
    apply (@good_find e fuel s log s' r G E). inversion F; assumption.
  - destruct G as [G1 G2 G3 G4 G5 G6 G7]. unfold b_reset. constructor; sredg; auto; try discriminate; try lia. constructor.
  - destruct G as [G1 G2 G3 G4 G5 G6 G7]. constructor; sredg; auto.
  - destruct G as [G1 G2 G3 G4 G5 G6 G7]. constructor; sredg; auto.
Qed.

Lemma do_log (s : bls) log c : exists new, snd (b_do (s, log) c) = new ++ log.
Proof.
  cbn [LsSpec.b_do snd]. destruct c as [e fuel| |b|]; try (exists []; reflexivity).
  destruct (snd (b_step pw log10 ao bo s (BFind e fuel))); [eexists [_]; reflexivity|exists []; reflexivity].
Qed.

Lemma good_fold l : forall s log, good s log -> Forall (fun k => goes_on k = true) (snd (fold_left b_do l (s, log))) ->
  good (fst (fold_left b_do l (s, log))) (snd (fold_left b_do l (s, log))).
Proof.
  induction l as [|c l IH] using rev_ind; intros s log G F; [exact G|].
  rewrite fold_left_app in *. cbn [fold_left] in *.
  destruct (fold_left b_do l (s, log)) as [s1 log1] eqn:E.
  assert (F1 : Forall (fun k => goes_on k = true) log1).
  { destruct (do_log s1 log1 c) as [new N]. rewrite N in F. apply Forall_app in F. apply F. }
  specialize (IH s log G). rewrite E in IH. apply good_do; auto.
Qed.

(** soft restoration steps *)
Definition is_find (c : @bop I D) : bool := match c with BFind _ _ => true | _ => false end.
Definition is_reset (c : @bop I D) : bool := match c with BReset => true | _ => false end.
Definition finds (l : list (@bop I D)) : nat := length (List.filter is_find l).

Lemma soft_seg l : forall s log, good s log -> forallb (fun c => negb (is_reset c)) l = true ->
  Forall (fun k => goes_on k = true) (snd (fold_left b_do l (s, log))) ->
  Forall (fun k => soft_step k = true) (firstn (finds l) (snd (fold_left b_do l (s, log)))) ->
  (1 <= finds l)%nat ->
  let s' := fst (fold_left b_do l (s, log)) in
  in_soft s' = true /\ Z.of_nat (finds l) - 1 <= soft_counter s' /\ ((2 <= finds l)%nat -> soft_counter s' <= b_soft_max bo).
Proof.
  induction l as [|c l IH] using rev_ind; intros s log G NR F S1 N; [cbn in N; lia|].
  cbv zeta. rewrite fold_left_app in *. cbn [fold_left] in *.
  destruct (fold_left b_do l (s, log)) as [s1 log1] eqn:E.
  rewrite forallb_app in NR. apply andb_true_iff in NR. destruct NR as [NR NC]. cbn [forallb] in NC. rewrite andb_true_r in NC.
  assert (F1 : Forall (fun k => goes_on k = true) log1).
  { destruct (do_log s1 log1 c) as [new N0]. rewrite N0 in F. apply Forall_app in F. apply F. }
  assert (G1 : good s1 log1).
  { pose proof (@good_fold l s log G) as X. rewrite E in X. cbn [fst snd] in X. auto. }
  specialize (IH s log G NR). rewrite E in IH. cbn [fst snd] in IH. specialize (IH F1).
  assert (FA : finds (l ++ [c]) = (finds l + (if is_find c then 1 else 0))%nat).
  { unfold finds. rewrite filter_app, app_length. cbn [List.filter]. destruct (is_find c); cbn [length]; lia. }
  rewrite FA in *.
  destruct c as [e fuel| |b|]; cbn [is_find is_reset negb] in *; try discriminate NC.
  - cbn [LsSpec.b_do fst snd b_step] in *. destruct (find_trial pw log10 ao bo e fuel s1) as [s' r] eqn:EF. cbn [fst snd] in *.
    replace (finds l + 1)%nat with (S (finds l)) in * by lia. cbn [firstn] in S1. inversion S1 as [|k0 l0 K1 K2]; subst k0 l0.
    specialize (IH K2). unfold soft_step in K1. cbn [k_res] in K1.
    destruct r as [p h| | |]; try discriminate K1. destruct h as [| | | |[]|]; try discriminate K1.
    apply find_post in EF. destruct (o_soft EF eq_refl) as (P1 & _ & P3). sredg.
    pose proof (g_softn G1) as GN. pose proof (g_soft0 G1) as G0.
    destruct P3 as [(Q1 & Q2 & Q3)|(Q1 & Q2)].
    + split; [exact P1|]. destruct (finds l) as [|m] eqn:EM; [split; [lia|intros; lia]|].
      destruct IH as (I1 & I2 & I3); [lia|]. split; [lia|]. intros _. lia.
    + specialize (G0 Q1). destruct (finds l) as [|m] eqn:EM; [split; [exact P1|split; [lia|lia]]|].
      destruct IH as (I1 & I2 & I3); [lia|]. congruence.
  - rewrite Nat.add_0_r in *. cbn [LsSpec.b_do fst snd b_step] in *. sredg. apply IH; auto.
  - rewrite Nat.add_0_r in *. cbn [LsSpec.b_do fst snd b_step] in *. sredg. apply IH; auto.
Qed.
End H.
