From Coq Require Import List Bool ZArith Reals Lra Lia.
From Flocq Require Import Core BinarySingleNaN.
From Verif Require Import Num PerturbModel PerturbSpec.
Import ListNotations.
Open Scope R_scope.

Definition ok0 (x : num) : Prop := nnan x = false /\ 0 <= key x.

Lemma nfin_ok x : nfin x = true -> 0 <= key x -> ok0 x.
Proof. intros; split; auto using nfin_nnan. Qed.

Lemma inf_key x : nnan x = false -> nfin x = false -> 0 <= key x -> x = ninf.
Proof.
  destruct x as [s|[|]| |s m e H]; simpl; intros; try discriminate; auto.
  pose proof big_pos; lra.
Qed.

Lemma mul_inf_r a : nnan a = false -> 0 < key a -> nmul a ninf = ninf.
Proof.
  pose proof big_pos.
  destruct a as [s|[|]| |s m e Hb]; simpl; intros; try discriminate; try lra; try reflexivity.
  destruct s; [|reflexivity].
  exfalso. assert (F2R (Float radix2 (Z.neg m) e) < 0) by (apply F2R_lt_0; reflexivity). simpl in *; lra.
Qed.
Lemma mul_inf_l a : nnan a = false -> 0 < key a -> nmul ninf a = ninf.
Proof.
  pose proof big_pos.
  destruct a as [s|[|]| |s m e Hb]; simpl; intros; try discriminate; try lra; try reflexivity.
  destruct s; [|reflexivity].
  exfalso. assert (F2R (Float radix2 (Z.neg m) e) < 0) by (apply F2R_lt_0; reflexivity). simpl in *; lra.
Qed.

Lemma ninf_ok : ok0 ninf.
Proof. split; [reflexivity|]. simpl. pose proof big_pos; lra. Qed.

Lemma ok_mul_l a x : nfin a = true -> 0 < key a -> ok0 x -> ok0 (nmul a x).
Proof.
  intros Fa Pa [N K]. destruct (nfin x) eqn:F.
  - destruct (nmul_fin a x Fa F) as [N1 K1]. split; auto. rewrite K1. apply fl_pos. nra.
  - rewrite (inf_key x N F K), mul_inf_r by (auto using nfin_nnan). apply ninf_ok.
Qed.
Lemma ok_mul_r a x : nfin a = true -> 0 < key a -> ok0 x -> ok0 (nmul x a).
Proof.
  intros Fa Pa [N K]. destruct (nfin x) eqn:F.
  - destruct (nmul_fin x a F Fa) as [N1 K1]. split; auto. rewrite K1. apply fl_pos. nra.
  - rewrite (inf_key x N F K), mul_inf_l by (auto using nfin_nnan). apply ninf_ok.
Qed.
Lemma ok_max a b : ok0 a -> ok0 b -> ok0 (nmax a b).
Proof. unfold nmax. destruct (nlt a b); auto. Qed.
Lemma ok_zero : ok0 nzero.
Proof. split; [reflexivity|]. rewrite key_nzero; lra. Qed.

Lemma ok_le_max x m : ok0 x -> nfin m = true -> ngt x m = false -> nfin x = true /\ 0 <= key x <= key m.
Proof.
  intros [N K] F H. unfold ngt in H. apply nlt_false in H; auto using nfin_nnan.
  split; [|split; auto]. apply key_strict_finite; auto.
  pose proof (key_finite_lt _ F) as B. apply Rabs_def2 in B. pose proof big_pos; lra.
Qed.

Section Range.
Variable o : popts.
Hypothesis V : valid_opts o.

Definition next_x (h : handler) : num :=
  if neqb (x_curr h) nzero then
      if neqb (x_last h) nzero then o_init o
      else nmax (o_min o) (nmul (x_last h) (o_dec o))
    else if neqb (x_last h) nzero || nlt (nmul c1e5 (x_last h)) (x_curr h)
      then nmul (o_first o) (x_curr h)
      else nmul (o_inc o) (x_curr h).

Lemma next_ok h : ok0 (x_last h) -> ok0 (x_curr h) -> ok0 (next_x h).
Proof.
  intros L C. destruct V as [Vmax Vmin Vfirst Vinc Vdec Vinit]. unfold next_x.
  destruct (neqb (x_curr h) nzero).
  - destruct (neqb (x_last h) nzero).
    + apply nfin_ok; [apply Vinit | lra].
    + apply ok_max; [apply nfin_ok; apply Vmin|]. apply ok_mul_r; tauto.
  - destruct (neqb (x_last h) nzero || nlt (nmul c1e5 (x_last h)) (x_curr h)); apply ok_mul_l; auto; try tauto; lra.
Qed.

Definition wk (h : handler) : Prop := ok0 (x_last h) /\ ok0 (x_curr h).
Definition st (cd : num) (h : handler) : Prop :=
  ok0 (x_last h) /\ nfin (x_curr h) = true /\ 0 <= key (x_curr h) <= key (o_max o) /\
  s_curr h = x_curr h /\ d_curr h = c_curr h /\ (c_curr h = nzero \/ c_curr h = cd).

Ltac sts := unfold st; simpl; intuition (auto; lra).

Lemma st_wk cd h : st cd h -> wk h.
Proof. intros (A & B & C & _). split; auto. apply nfin_ok; auto; lra. Qed.

Lemma get_deltas_spec h v r h1 v1 : get_deltas o h v = (r, h1, v1) ->
  (r = true /\ ngt (next_x h) (o_max o) = false /\
     h1 = Handler (x_last h) (next_x h) (next_x h) (c_curr h) (d_curr h) (hess h) (jac h) (iters h) (status h) /\
     v1 = Deltas (Some (next_x h)) (Some (next_x h)) (Some (c_curr h)) (Some (d_curr h)))
  \/ (r = false /\ v1 = v /\
     h1 = Handler nzero (next_x h) (s_curr h) (c_curr h) (d_curr h) (hess h) (jac h) (iters h) (status h)).
Proof.
  unfold get_deltas. fold (next_x h). destruct (ngt (next_x h) (o_max o)) eqn:E; intros H; inversion H; subst; auto.
Qed.

Lemma finalize_fields h :
  x_last (finalize_test h) = x_last h /\ x_curr (finalize_test h) = x_curr h /\
  s_curr (finalize_test h) = s_curr h /\ c_curr (finalize_test h) = c_curr h /\
  d_curr (finalize_test h) = d_curr h /\ status (finalize_test h) = status h.
Proof.
  unfold finalize_test.
  destruct (status h) eqn:S0; repeat match goal with |- context[if ?b then _ else _] => destruct b end; simpl; auto 7.
Qed.

Lemma get_ok cd h v h1 v1 : wk h -> d_curr h = c_curr h -> c_curr h = nzero \/ c_curr h = cd ->
  get_deltas o h v = (true, h1, v1) -> st cd h1 /\ v1 = current h1.
Proof.
  intros [A B] D C E. apply get_deltas_spec in E. destruct E as [(_ & G & -> & ->)|(X & _)]; [|discriminate].
  pose proof (next_ok h A B) as O.
  destruct (ok_le_max _ (o_max o) O (proj1 (vo_max _ V)) G) as (F & K).
  split; [sts|reflexivity].
Qed.
Lemma get_wk h v r h1 v1 : wk h -> get_deltas o h v = (r, h1, v1) -> wk h1.
Proof.
  intros [A B] E. pose proof (next_ok h A B). apply get_deltas_spec in E.
  destruct E as [(_ & _ & -> & _)|(_ & _ & ->)]; split; simpl; auto using ok_zero.
Qed.

Lemma new_wk cd h v r h1 v1 : wk h -> consider_new o cd h v = (r, h1, v1) ->
  wk h1 /\ (r = true -> st cd h1 /\ v1 = current h1).
Proof.
  intros [A B]. unfold consider_new. cbv zeta. change reset_last with false. cbv iota.
  destruct (finalize_fields h) as (F1 & F2 & _).
  set (h2 := if ngt (x_curr (finalize_test h)) nzero then _ else _).
  assert (W : wk h2).
  { unfold h2. destruct (ngt _ _); split; simpl; rewrite ?F1, ?F2; auto. }
  clearbody h2.
  set (t := if is_nyd (hess h2) || is_nyd (jac h2) then _ else _). clearbody t.
  set (c := if is_degen (jac (set_status h2 t)) then _ else _).
  assert (C : c = nzero \/ c = cd) by (unfold c; destruct (is_degen _); auto; destruct (o_always o); auto).
  clearbody c.
  destruct (is_degen _) eqn:HD.
  - destruct (get_deltas o _ _) as [[r5 h5] v5] eqn:G.
    assert (W' : wk (set_xs (set_cd (set_status h2 t) c) nzero)) by (split; simpl; [apply W|apply ok_zero]).
    pose proof (get_wk _ _ _ _ _ W' G) as W5.
    destruct r5; cbn [negb]; intros E; inversion E; subst; split; auto; try discriminate.
    intros _. eapply get_ok; [exact W'|reflexivity|exact C|exact G].
  - intros E; inversion E; subst; clear E. split; [split; simpl; [apply W|apply ok_zero]|].
    intros _. split; [|reflexivity].
    destruct (vo_max _ V). destruct W. sts.
Qed.

Lemma set_cd_st cd h : st cd h -> st cd (set_cd h cd).
Proof. intros (A & B & C & D & E & F); sts. Qed.
Lemma set_cd0_st cd h : st cd h -> st cd (set_cd h nzero).
Proof. intros (A & B & C & D & E & F); sts. Qed.
Lemma set_status_st cd h t : st cd h -> st cd (set_status h t).
Proof. intros (A & B & C & D & E & F); sts. Qed.
Lemma finalize_st cd h : st cd h -> st cd (finalize_test h).
Proof.
  intros (A & B & C & D & E & F). destruct (finalize_fields h) as (F1 & F2 & F3 & F4 & F5 & _).
  unfold st. rewrite F1, F2, F3, F4, F5. auto 7.
Qed.

Lemma get_st cd h v r h1 v1 : st cd h -> get_deltas o h v = (r, h1, v1) ->
  wk h1 /\ (r = true -> st cd h1 /\ v1 = current h1).
Proof.
  intros S0 E. split; [eapply get_wk; eauto using st_wk|].
  intros ->. destruct S0 as (A & B & C & D & F & G). eapply get_ok; eauto.
  split; auto. apply nfin_ok; auto; lra.
Qed.

Lemma sing_st cd h v r h1 v1 : st cd h -> perturb_singular o cd h v = (r, h1, v1) ->
  wk h1 /\ (r = true -> st cd h1 /\ v1 = current h1).
Proof.
  intros S0. unfold perturb_singular. cbv zeta.
  assert (G : forall h' t, st cd h' ->
     (let '(r, h1, v1) := get_deltas o h' v in
      if negb r then (false, h1, v1) else (true, set_status h1 t, current h1)) = (r, h1, v1) ->
     wk h1 /\ (r = true -> st cd h1 /\ v1 = current h1)).
  { intros h' t S1. destruct (get_deltas o h' v) as [[r5 h5] v5] eqn:E.
    destruct (get_st _ _ _ _ _ _ S1 E) as [W X].
    destruct r5; simpl; intros E'; inversion E'; subst; split; auto; try discriminate.
    intros _. destruct (X eq_refl). split; auto using set_status_st. }
  assert (I : forall h', st cd h' -> (true, h', current h') = (r, h1, v1) ->
     wk h1 /\ (r = true -> st cd h1 /\ v1 = current h1)).
  { intros h' S1 E. inversion E; subst. split; eauto using st_wk. }
  destruct (is_nyd (hess h) || is_nyd (jac h)).
  - destruct (status h).
    + apply I; auto.
    + destruct (is_nyd (jac h)); [apply I; auto using set_status_st, set_cd_st | apply G; auto].
    + destruct (negb (o_always o)); apply G; auto using set_cd0_st.
    + apply G; auto using set_cd_st.
    + apply G; auto.
  - destruct (ngt (c_curr h) nzero).
    + destruct (get_deltas o h v) as [[r5 h5] v5] eqn:E.
      destruct (get_st _ _ _ _ _ _ S0 E) as [W X].
      destruct r5; simpl; intros E'; inversion E'; subst; split; auto; try discriminate.
      intros _. split; auto. apply X; auto.
    + apply I; auto using set_cd_st.
Qed.

Lemma inertia_st cd h v r h1 v1 : st cd h -> perturb_inertia o cd h v = (r, h1, v1) ->
  wk h1 /\ (r = true -> st cd h1 /\ v1 = current h1).
Proof.
  intros S0. unfold perturb_inertia. cbv zeta.
  pose proof (finalize_st _ _ S0) as S1.
  destruct (get_deltas o (finalize_test h) v) as [[r5 h5] v5] eqn:E.
  destruct (get_st _ _ _ _ _ _ S1 E) as [W X].
  destruct (negb r5 && is_zero_var (dc v5)) eqn:N.
  - set (h3 := if is_degen _ then _ else _).
    assert (S3 : wk h3 /\ d_curr h3 = c_curr h3 /\ c_curr h3 = cd).
    { destruct W as [W1 W2]. unfold h3. destruct (is_degen _); simpl; repeat split; auto; try apply ok_zero; apply W1. }
    clearbody h3. intros E'. destruct S3 as (W3 & D3 & C3). split; [eapply get_wk; eauto|].
    intros ->. eapply get_ok; eauto.
  - intros E'; inversion E'; subst; auto.
Qed.

Lemma call_st cd c h v r h1 v1 : c <> New -> st cd h -> do_call o cd c h v = (r, h1, v1) ->
  wk h1 /\ (r = true -> st cd h1 /\ v1 = current h1).
Proof.
  destruct c; simpl; intros; try congruence; eauto using sing_st, inertia_st.
Qed.

Lemma history_st cds :
  (forall h, idle o cds h -> wk h) /\
  (forall cd h tr, live o cds cd h tr -> st cd h /\ exists r, tr = current h :: r).
Proof.
  apply (history_ind o cds (fun h _ => wk h) (fun cd h tr _ => st cd h /\ exists r, tr = current h :: r)).
  - split; apply ok_zero.
  - intros cd h tr _ [S0 _]; eauto using st_wk.
  - intros cd h v tr c h1 v1 _ [S0 _] N E. eapply call_st; eauto.
  - intros cd h v h1 v1 _ W C E. eapply new_wk; eauto.
  - intros cd h v h1 v1 _ W C E. destruct (new_wk _ _ _ _ _ _ W E) as [_ X].
    destruct (X eq_refl) as [S1 ->]. eauto.
  - intros cd h v tr c h1 v1 _ [S0 _] N E. destruct (call_st _ _ _ _ _ _ _ N S0 E) as [_ X].
    destruct (X eq_refl) as [S1 ->]. eauto.
Qed.

Lemma st_range cd h : st cd h -> in_range o cd (current h).
Proof.
  intros (A & B & C & D & E & F). exists (x_curr h), (c_curr h). unfold current; simpl.
  rewrite D, E. auto 10.
Qed.

Lemma live_range cds cd h tr : live o cds cd h tr -> Forall (in_range o cd) tr.
Proof.
  assert (G : forall cd h tr, live o cds cd h tr ->
            match tr with v :: _ => in_range o cd v | [] => True end).
  { intros cd0 h0 tr0 L. destruct (proj2 (history_st cds) _ _ _ L) as (S0 & r & ->). apply st_range; auto. }
  induction 1 as [cd h v h1 v1 I0 C E | cd h v tr c h1 v1 L IH N E].
  - constructor; [|constructor]. apply (G cd h1 [v1]). eapply live_new; eauto.
  - constructor; auto. apply (G cd h1 (v1 :: v :: tr)). eapply live_retry; eauto.
Qed.

(** ** Termination *)
Definition rank (t : tstatus) : nat :=
  match t with EQ0_EQ0 => 4 | GT0_EQ0 => 3 | EQ0_GT0 => 2 | GT0_GT0 => 1 | NO_TEST => 0 end.
Definition w (h : handler) : nat := 2 * rank (status h) + (if neqb (c_curr h) nzero then 1 else 0).

Lemma w_bound h : (w h <= 9)%nat.
Proof. unfold w. destruct (status h), (neqb _ _); simpl; lia. Qed.

Variable lev : num -> Z.
Variable B : Z.
Hypothesis lev_range : forall x, nfin x = true -> 0 <= key x <= key (o_max o) -> (0 <= lev x <= B)%Z.
Hypothesis lev_inc : forall h, ok0 (x_last h) -> nfin (x_curr h) = true ->
  0 <= key (x_curr h) <= key (o_max o) ->
  (key (x_curr h) <> 0 -> bpow radix2 (-1022) <= key (x_curr h)) ->
  ngt (next_x h) (o_max o) = false ->
  (lev (x_curr h) < lev (next_x h))%Z /\ bpow radix2 (-1022) <= key (next_x h).

Definition nrm (h : handler) : Prop := key (x_curr h) <> 0 -> bpow radix2 (-1022) <= key (x_curr h).
Definition meas (h : handler) : Z := (Z.of_nat (w h) * (B + 1) + (B - lev (x_curr h)))%Z.

Definition stuck (h : handler) : Prop := status h = NO_TEST /\ is_nyd (hess h) || is_nyd (jac h) = true.

Lemma meas_lt_w cd h h1 : st cd h -> st cd h1 -> (w h1 < w h)%nat -> (meas h1 < meas h)%Z.
Proof.
  intros (_ & A & A' & _) (_ & C & C' & _) L. unfold meas.
  pose proof (lev_range _ A A'). pose proof (lev_range _ C C'). nia.
Qed.
Lemma meas_lt_x h h1 : w h1 = w h -> (lev (x_curr h) < lev (x_curr h1))%Z -> (meas h1 < meas h)%Z.
Proof. unfold meas. intros -> ?. lia. Qed.

Lemma get_prog cd h v h1 v1 : st cd h -> nrm h -> get_deltas o h v = (true, h1, v1) ->
  nrm h1 /\ (lev (x_curr h) < lev (x_curr h1))%Z /\ status h1 = status h /\ c_curr h1 = c_curr h /\
  hess h1 = hess h /\ jac h1 = jac h.
Proof.
  intros (A & F & K & _) N E. apply get_deltas_spec in E.
  destruct E as [(_ & G & -> & ->)|(X & _)]; [|discriminate].
  destruct (lev_inc h A F K N G). repeat split; simpl; auto. intros _. simpl. auto.
Qed.

Lemma cd_nz cd : cd_pos cd -> neqb cd nzero = false.
Proof.
  intros [F P]. destruct (neqb cd nzero) eqn:E; auto. apply neqb_iff in E. rewrite key_nzero in E. lra.
Qed.
Lemma z_z : neqb nzero nzero = true.
Proof. apply neqb_iff; auto. Qed.

Lemma gt0_nz c : nnan c = false -> 0 <= key c -> ngt c nzero = negb (neqb c nzero).
Proof.
  intros N K. destruct (ngt c nzero) eqn:G; destruct (neqb c nzero) eqn:E; auto; exfalso.
  - unfold ngt in G. apply nlt_iff in G. apply neqb_iff in E. rewrite key_nzero in *. lra.
  - unfold ngt in G. apply nlt_false in G; auto. apply neqb_false in E; auto. rewrite key_nzero in *. lra.
Qed.

Lemma sing_prog cd h v h1 v1 : cd_pos cd -> st cd h -> nrm h ->
  perturb_singular o cd h v = (true, h1, v1) ->
  nrm h1 /\ ((meas h1 < meas h)%Z \/ (stuck h /\ h1 = h)).
Proof.
  intros P S0 N E. pose proof E as E0.
  destruct (sing_st _ _ _ _ _ _ S0 E0) as [_ X]. destruct (X eq_refl) as [S1 _]. clear X E0.
  revert E. unfold perturb_singular. cbv zeta.
  assert (G : forall h' t, st cd h' -> x_curr h' = x_curr h ->
     ((rank t < rank (status h))%nat \/ (t = status h /\ h' = h)) ->
     (let '(r, h1, v1) := get_deltas o h' v in
      if negb r then (false, h1, v1) else (true, set_status h1 t, current h1)) = (true, h1, v1) ->
     nrm h1 /\ ((meas h1 < meas h)%Z \/ (stuck h /\ h1 = h))).
  { intros h' t S2 X0 R. destruct (get_deltas o h' v) as [[r5 h5] v5] eqn:E.
    destruct r5; simpl; intros E'; inversion E'; subst; clear E'.
    assert (N' : nrm h') by (unfold nrm in *; rewrite X0; auto).
    destruct (get_prog _ _ _ _ _ S2 N' E) as (P1 & P2 & P3 & P4 & _).
    split; [exact P1|]. left. destruct R as [R|[-> ->]].
    - eapply meas_lt_w; eauto. unfold w. simpl.
      destruct (neqb (c_curr h5) nzero), (neqb (c_curr h) nzero); lia.
    - apply meas_lt_x; auto. unfold w. simpl. rewrite P4. reflexivity. }
  assert (NN : nnan (c_curr h) = false /\ 0 <= key (c_curr h)).
  { destruct S0 as (_ & _ & _ & _ & _ & [-> | ->]); [split; [reflexivity|rewrite key_nzero; lra]|].
    destruct P; split; [apply nfin_nnan; auto|lra]. }
  destruct (is_nyd (hess h) || is_nyd (jac h)) eqn:U.
  - destruct (status h) eqn:T.
    + intros E; inversion E; subst. split; auto. right. repeat split; auto.
    + destruct (is_nyd (jac h)).
      * intros E; inversion E; subst. split; [exact N|]. left.
        eapply meas_lt_w; eauto. unfold w; simpl. rewrite T. simpl.
        destruct (neqb cd nzero), (neqb (c_curr h) nzero); lia.
      * apply G; auto. simpl. left; lia.
    + destruct (negb (o_always o)); apply G; auto using set_cd0_st; simpl; left; lia.
    + apply G; auto using set_cd_st.
    + apply G; auto.
  - destruct NN as [NN NK]. rewrite gt0_nz by auto. destruct (neqb (c_curr h) nzero) eqn:Z0; cbn [negb].
    + intros E; inversion E; subst. split; [exact N|]. left. eapply meas_lt_w; eauto.
      unfold w; simpl. rewrite Z0, (cd_nz _ P). lia.
    + destruct (get_deltas o h v) as [[r5 h5] v5] eqn:E.
      destruct r5; simpl; intros E'; inversion E'; subst; clear E'.
      destruct (get_prog _ _ _ _ _ S0 N E) as (P1 & P2 & P3 & P4 & _).
      split; auto. left. apply meas_lt_x; auto. unfold w. rewrite P3, P4. reflexivity.
Qed.

Lemma inertia_prog cd h h1 v1 : cd_pos cd -> st cd h -> nrm h ->
  perturb_inertia o cd h (current h) = (true, h1, v1) ->
  nrm h1 /\ (meas h1 < meas h)%Z.
Proof.
  intros P S0 N E. pose proof E as E0.
  destruct (inertia_st _ _ _ _ _ _ S0 E0) as [_ X]. destruct (X eq_refl) as [S1 _]. clear X E0.
  revert E. unfold perturb_inertia. cbv zeta.
  destruct (finalize_fields h) as (F1 & F2 & F3 & F4 & F5 & F6).
  pose proof (finalize_st _ _ S0) as S2.
  assert (N2 : nrm (finalize_test h)) by (unfold nrm in *; rewrite F2; auto).
  assert (MW : w (finalize_test h) = w h) by (unfold w; rewrite F4, F6; auto).
  destruct (get_deltas o (finalize_test h) (current h)) as [[r5 h5] v5] eqn:E.
  destruct r5; cbn [negb andb].
  - intros E'; inversion E'; subst; clear E'.
    destruct (get_prog _ _ _ _ _ S2 N2 E) as (P1 & P2 & P3 & P4 & _).
    split; auto. apply meas_lt_x; [|rewrite <- F2; auto]. rewrite <- MW. unfold w. rewrite P3, P4. reflexivity.
  - destruct (get_st _ _ _ _ _ _ S2 E) as [W5 _].
    apply get_deltas_spec in E. destruct E as [(X & _)|(_ & -> & ->)]; [discriminate|].
    destruct (is_zero_var (dc (current h))) eqn:Z0; [|discriminate].
    simpl in Z0. set (h3 := if is_degen _ then _ else _).
    intros E.
    assert (A3 : x_last h3 = nzero /\ x_curr h3 = nzero /\ s_curr h3 = nzero /\ c_curr h3 = cd /\ d_curr h3 = cd /\ status h3 = NO_TEST).
    { unfold h3. destruct (is_degen _); simpl; auto 7. }
    clearbody h3. destruct A3 as (B1 & B2 & B3 & B4 & B5 & B6).
    assert (S3 : st cd h3).
    { unfold st. rewrite B1, B2, B3, B4, B5. destruct (vo_max _ V).
      split; [apply ok_zero|]. repeat split; auto; rewrite ?key_nzero; lra. }
    assert (N3 : nrm h3) by (unfold nrm; rewrite B2, key_nzero; congruence).
    destruct (get_prog _ _ _ _ _ S3 N3 E) as (P1 & P2 & P3 & P4 & _).
    split; auto. eapply meas_lt_w; eauto.
    unfold w. rewrite P3, P4, B4, B6, Z0, (cd_nz _ P). simpl. lia.
Qed.

Lemma new_nrm cd h v h1 v1 : st cd h1 -> wk h ->
  consider_new o cd h v = (true, h1, v1) -> nrm h1.
Proof.
  intros S1 W. unfold consider_new. cbv zeta. change reset_last with false. cbv iota.
  destruct (finalize_fields h) as (F1 & F2 & _).
  set (h2 := if ngt (x_curr (finalize_test h)) nzero then _ else _).
  assert (W2 : wk h2).
  { unfold h2. destruct W as [A0 B0]. destruct (ngt _ _); split; simpl; rewrite ?F1, ?F2; auto. }
  clearbody h2.
  set (t := if is_nyd (hess h2) || is_nyd (jac h2) then _ else _). clearbody t.
  set (c := if is_degen (jac (set_status h2 t)) then _ else _). clearbody c.
  destruct (is_degen _) eqn:HD.
  - destruct (get_deltas o _ _) as [[r5 h5] v5] eqn:G.
    destruct r5; cbn [negb]; intros E; inversion E; subst; clear E.
    apply get_deltas_spec in G. destruct G as [(_ & G & -> & _)|(X & _)]; [|discriminate].
    intros _. simpl. edestruct lev_inc as [_ L]; [..|exact G|exact L].
    + simpl. apply W2.
    + reflexivity.
    + simpl. destruct (vo_max _ V). lra.
    + simpl. congruence.
  - intros E; inversion E; subst. intros X. simpl in X. congruence.
Qed.

Lemma live_prog (cds : num -> Prop) cd h tr : (forall c, cds c -> cd_pos c) -> live o cds cd h tr ->
  cd_pos cd /\ nrm h /\
  (all_changed tr -> (Z.of_nat (length tr) + meas h <= 10 * (B + 1))%Z).
Proof.
  intros C L. induction L as [cd h v h1 v1 I0 C0 E | cd h v tr c h1 v1 L IH N E].
  - assert (S1 : st cd h1).
    { destruct (new_wk _ _ _ _ _ _ (proj1 (history_st cds) _ I0) E) as [_ X]. apply X; auto. }
    split; auto. split. { eapply new_nrm; eauto. apply (proj1 (history_st cds)); auto. }
    intros _. unfold meas. pose proof (w_bound h1).
    destruct S1 as (_ & F & K & _). pose proof (lev_range _ F K). simpl length. nia.
  - destruct IH as (P & N0 & IH). split; auto.
    destruct (proj2 (history_st cds) _ _ _ L) as (S0 & r & E1). inversion E1; subst.
    destruct (call_st _ _ _ _ _ _ _ N S0 E) as [_ X]. destruct (X eq_refl) as [S1 ->].
    assert (Q : nrm h1 /\ ((meas h1 < meas h)%Z \/ (stuck h /\ h1 = h))).
    { destruct c; [congruence| |]; simpl in E.
      - eapply sing_prog; eauto.
      - destruct (inertia_prog _ _ _ _ P S0 N0 E); auto. }
    destruct Q as [N1 Q]. split; auto. intros [D AC]. specialize (IH AC).
    destruct Q as [Q|[_ ->]]; [|congruence].
    cbn [length] in *. lia.
Qed.

(** only wrong-inertia requests: every successful one makes progress *)
Lemma inertia_changes (cds : num -> Prop) cd h v tr h1 v1 : (forall c, cds c -> cd_pos c) ->
  live o cds cd h (v :: tr) -> perturb_inertia o cd h v = (true, h1, v1) -> (meas h1 < meas h)%Z.
Proof.
  intros C L E. destruct (live_prog cds cd h _ C L) as (P & N0 & _).
  destruct (proj2 (history_st cds) _ _ _ L) as (S0 & r & E1). inversion E1; subst.
  eapply inertia_prog; eauto.
Qed.

End Range.
