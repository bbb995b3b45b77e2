(** Proofs about the adaptive barrier update. *)
From Coq Require Import Reals List Bool Arith Lra Lia.
From Verif Require Import AmuModel AmuSpec.
Import ListNotations.
Open Scope R_scope.
Set Implicit Arguments.

Definition lastn {A} (n : nat) (l : list A) : list A := skipn (length l - n) l.

Lemma lastn_snoc_full A (n : nat) (l : list A) a x r :
  (n <= length (lastn n l))%nat -> lastn n l = a :: r -> lastn n (l ++ [x]) = r ++ [x].
Proof.
  unfold lastn. intros H E.
  rewrite skipn_length in H.
  assert (L : (n <= length l)%nat) by lia.
  rewrite app_length; cbn [length].
  replace (length l + 1 - n)%nat with (S (length l - n)) by
    (assert (n <> 0)%nat; [intros ->; rewrite Nat.sub_0_r, skipn_all in E; discriminate | lia]).
  rewrite skipn_app.
  assert (n <> 0)%nat by (intros ->; rewrite Nat.sub_0_r, skipn_all in E; discriminate).
  replace (S (length l - n) - length l)%nat with 0%nat by lia. cbn [skipn].
  f_equal.
  assert (G : forall k (m : list A) b t, skipn k m = b :: t -> skipn (S k) m = t).
  { clear. induction k; intros m b t H; [cbn in H; subst; reflexivity|].
    destruct m; [discriminate|]. cbn [skipn] in H. cbn [skipn]. exact (IHk _ _ _ H). }
  exact (G _ _ _ _ E).
Qed.

Lemma lastn_snoc_short A (n : nat) (l : list A) x :
  (length (lastn n l) < n)%nat -> lastn n (l ++ [x]) = lastn n l ++ [x].
Proof.
  unfold lastn. rewrite skipn_length. intros H.
  rewrite app_length; cbn [length].
  replace (length l - n)%nat with 0%nat by lia.
  replace (length l + 1 - n)%nat with 0%nat by lia. reflexivity.
Qed.

Lemma lastn_length_le A (n : nat) (l : list A) : (length (lastn n l) <= n)%nat.
Proof. unfold lastn. rewrite skipn_length. lia. Qed.

Lemma nth_skipn A (l : list A) : forall k i, nth_error (skipn k l) i = nth_error l (k + i).
Proof.
  induction l as [|x l IH]; intros k i.
  - rewrite skipn_nil. destruct i, k; reflexivity.
  - destruct k; [reflexivity|]. cbn [skipn Nat.add nth_error]. apply IH.
Qed.

Lemma in_lastn A (n : nat) (l : list A) y :
  In y (lastn n l) <-> exists j, nth_error l j = Some y /\ (length l - n <= j)%nat.
Proof.
  unfold lastn. split.
  - intros H. apply In_nth_error in H. destruct H as [i Hi].
    rewrite nth_skipn in Hi. exists (length l - n + i)%nat. split; [exact Hi | lia].
  - intros (j & Hj & L). apply nth_error_In with (n := (j - (length l - n))%nat).
    rewrite nth_skipn. rewrite <- Hj. f_equal. lia.
Qed.

Section Proofs.
Variable pt : Type.
Variable pw : R -> R -> R.
Variable q : cq pt.
Variable o : opts.

Definition new_min (c : call pt) (m : R) : R :=
  if o_mumin_user o then m else Rmin m (/ 2 * Rmin (c_tol c) (c_ctol c)).
Definition new_max (c : call pt) (m : R) : R :=
  if Rlt_dec m 0 then o_mumaxfact o * q_avrg q (c_pt c) else m.

(** The state when the modes are looked at. *)
Definition pre (c : call pt) (s : st pt) : st pt :=
  St (new_min c (s_mumin s)) (new_max c (s_mumax s)) (s_idi s) (s_ipi s) (s_refs s) true false
     (s_filter s) (s_free s) (s_acc s) (s_mu s) (s_tau s) (c_pt c).

Lemma pre_eq c s : bounded q -> s_nob s = false ->
  upd_bounds q o (upd_limits q o c (set_cur s (c_pt c))) = pre c s.
Proof.
  intros B N. unfold upd_limits, upd_bounds, pre, new_min, new_max.
  destruct s as [mn mx i1 i2 rf ck nb fl fr ac mu tau cu].
  cbn in N. subst nb.
  destruct (o_mumin_user o); cbn; destruct (Rlt_dec mx 0); cbn; destruct ck; cbn;
    try (destruct (Nat.eqb_spec (q_nbounds q (c_pt c)) 0) as [e|e]; [destruct (B _ e)|]); reflexivity.
Qed.

(** End of a call in free mode. *)
Definition free_end (c : call pt) (s1 : st pt) (b : bool) (s' : st pt) (ev : list (event pt)) : Prop :=
  let t := Rmax (o_taumin o) (1 - q_nlp q (s_cur s1)) in
  (c_free c (Rmax (s_mumin s1) (o_mutarget o)) (s_mumax s1) = None /\ b = false /\
     s' = set_tau s1 t /\ ev = []) \/
  (exists m s2 l, c_free c (Rmax (s_mumin s1) (o_mutarget o)) (s_mumax s1) = Some m /\
     lower_safe q o (set_tau s1 t) = Some (s2, l) /\ b = true /\
     s' = set_mu s2 (Rmin (Rmax (Rmax m (s_mumin s1)) l) (s_mumax s2)) /\ In (EReset pt) ev).

Lemma finish_free c s1 b s' ev :
  s_free s1 = true -> finish q o c s1 [] = Ret b s' ev -> free_end c s1 b s' ev.
Proof.
  intros F H. unfold finish in H. rewrite F in H. unfold free_end.
  cbn [s_mumin s_mumax set_tau] in H.
  destruct (c_free c (Rmax (s_mumin s1) (o_mutarget o)) (s_mumax s1)) as [m|] eqn:C.
  - right. destruct (lower_safe q o (set_tau s1 (Rmax (o_taumin o) (1 - q_nlp q (s_cur s1)))))
      as [[s2 l]|] eqn:L; [|discriminate].
    exists m, s2, l. split; [reflexivity|]. split; [reflexivity|].
    destruct (Rlt_dec (Rmax m (s_mumin s1)) l) as [Q|Q]; injection H as <- <- <-.
    + split; [reflexivity|]. split; [|right; left; reflexivity].
      rewrite (Rmax_right _ l) by lra. reflexivity.
    + split; [reflexivity|]. split; [|left; reflexivity].
      rewrite (Rmax_left _ l) by lra. reflexivity.
  - left. injection H as <- <- <-. repeat split.
Qed.

Definition tinyb c := @c_tiny pt c = true.

Inductive ucase (c : call pt) (s : st pt) (b : bool) (s' : st pt) (ev : list (event pt)) : Prop :=
  | U_free s1 : check_progress q o s = true ->
      (s_free s = true -> o_glob o <> NEVER_MONOTONE_MODE -> c_skip c = false /\ c_tiny c = false) ->
      (s_free s = false -> c_tiny c = false) ->
      remember q o (set_free s true) = Some s1 -> s_free s1 = true -> free_end c s1 b s' ev ->
      ucase c s b s' ev
  | U_stay : s_free s = false -> check_progress q o s = false -> c_tiny c = false ->
      ~ q_berr q (s_cur s) (s_mu s) <= o_btol o * s_mu s ->
      b = true -> s' = s -> ucase c s b s' ev
  | U_reduce : s_free s = false -> (check_progress q o s = false \/ c_tiny c = true) ->
      (q_berr q (s_cur s) (s_mu s) <= o_btol o * s_mu s \/ c_tiny c = true) ->
      b = true ->
      s' = set_tau (set_mu s (reduced_mu pw o c (s_mu s))) (tau_monotone o (s_mu s)) ->
      In (EReset pt) ev ->
      ucase c s b s' ev
  | U_switch s2 s3 m : s_free s = true ->
      (check_progress q o s = false \/
       (o_glob o <> NEVER_MONOTONE_MODE /\ (c_skip c = true \/ c_tiny c = true))) ->
      ((o_restore o = false /\ s2 = set_free s false) \/
       (o_restore o = true /\ exists p, s_acc s = Some p /\ s2 = set_cur (set_free s false) p /\ In (EAccept p) ev)) ->
      new_fixed_mu q o c s2 = Some (s3, m) ->
      b = true -> s' = set_tau (set_mu s3 m) (tau_monotone o m) -> In (EReset pt) ev ->
      ucase c s b s' ev.

Lemma set_free_id (s : st pt) : s_free s = true -> set_free s true = s.
Proof. destruct s; cbn; intros ->; reflexivity. Qed.

Lemma remember_free (s s1 : st pt) : remember q o s = Some s1 -> s_free s1 = s_free s.
Proof.
  unfold remember. intros H.
  destruct (o_glob o); [destruct (o_rediters o <=? length (s_refs s)) eqn:E; [destruct (s_refs s); [discriminate|]|]| |];
    injection H as <-; destruct (o_restore o); reflexivity.
Qed.

Lemma new_fixed_free c s s3 m : new_fixed_mu q o c s = Some (s3, m) -> s_free s3 = s_free s.
Proof.
  unfold new_fixed_mu. destruct (lower_safe q o s) as [[s1 l]|] eqn:L; [|discriminate].
  intros H; injection H as <- _.
  unfold lower_safe in L. destruct (Req_EM_T (o_safe o) 0); [injection L as <- _; reflexivity|].
  destruct (o_glob o); [destruct (min_ref_val _); [|discriminate]| |]; injection L as <- _; reflexivity.
Qed.

Lemma update_cases c s b s' ev : bounded q -> s_nob s = false ->
  update pw q o c s = Ret b s' ev -> ucase c (pre c s) b s' ev.
Proof.
  intros B N H. unfold update in H. rewrite (pre_eq c s B N) in H.
  change (s_nob (pre c s)) with false in H. cbv iota in H.
  set (p := pre c s) in *. clearbody p.
  destruct (s_free p) eqn:F; cbn [negb] in H.
  - destruct (match o_glob o with NEVER_MONOTONE_MODE => check_progress q o p
              | _ => if c_skip c || c_tiny c then false else check_progress q o p end) eqn:K.
    + destruct (remember q o p) as [s1|] eqn:M; [|discriminate].
      assert (F1 : s_free s1 = true) by (rewrite (remember_free _ M); exact F).
      apply (@finish_free c s1 _ _ _ F1) in H.
      apply (@U_free c p b s' ev s1); auto.
      * destruct (o_glob o); try destruct (c_skip c || c_tiny c); try discriminate; exact K.
      * intros _ G. destruct (o_glob o); try congruence; apply orb_false_iff;
          destruct (c_skip c || c_tiny c); try discriminate; reflexivity.
      * rewrite F; discriminate.
      * rewrite set_free_id by exact F. exact M.
    + assert (K' : check_progress q o p = false \/
         (o_glob o <> NEVER_MONOTONE_MODE /\ (c_skip c = true \/ c_tiny c = true))).
      { destruct (o_glob o) eqn:G; try (left; exact K);
          (destruct (c_skip c || c_tiny c) eqn:Z; [right; split; [congruence | apply orb_true_iff; exact Z] | left; exact K]). }
      clear K. cbv zeta in H. cbn [s_acc set_free] in H.
      destruct (o_restore o) eqn:Rr.
      * destruct (s_acc p) as [x|] eqn:A; [|discriminate].
        destruct (new_fixed_mu q o c (set_cur (set_free p false) x)) as [[s3 m]|] eqn:M; [|discriminate].
        destruct (c_tiny c && _); [discriminate|].
        unfold finish in H. cbn [s_free set_tau set_mu] in H.
        rewrite (@new_fixed_free _ _ _ _ M) in H. cbn [s_free set_cur set_free] in H.
        injection H as <- <- <-.
        eapply U_switch; eauto; [|right; left; reflexivity].
        right. split; [exact Rr|]. exists x. split; [exact A|]. split; [reflexivity| left; reflexivity].
      * destruct (new_fixed_mu q o c (set_free p false)) as [[s3 m]|] eqn:M; [|discriminate].
        destruct (c_tiny c && _); [discriminate|].
        unfold finish in H. cbn [s_free set_tau set_mu] in H.
        rewrite (@new_fixed_free _ _ _ _ M) in H. cbn [s_free set_free] in H.
        injection H as <- <- <-.
        eapply U_switch with (s2 := set_free p false); eauto. left; reflexivity.
  - destruct (check_progress q o p && negb (c_tiny c)) eqn:K.
    + apply andb_true_iff in K. destruct K as [K T]. apply negb_true_iff in T.
      destruct (remember q o (set_free p true)) as [s1|] eqn:M; [|discriminate].
      assert (F1 : s_free s1 = true) by (rewrite (remember_free _ M); reflexivity).
      apply (@finish_free c s1 _ _ _ F1) in H.
      apply (@U_free c p b s' ev s1); auto. rewrite F; discriminate.
    + assert (K' : check_progress q o p = false \/ c_tiny c = true).
      { destruct (check_progress q o p); [right; destruct (c_tiny c); [reflexivity|discriminate] | left; reflexivity]. }
      destruct (Rle_dec (q_berr q (s_cur p) (s_mu p)) (o_btol o * s_mu p)) as [L|L]; cbn [orb] in H.
      * destruct (c_tiny c && _); [discriminate|].
        unfold finish in H. cbn [s_free set_tau set_mu] in H. rewrite F in H.
        injection H as <- <- <-. apply U_reduce; auto. left; reflexivity.
      * destruct (c_tiny c) eqn:T.
        -- destruct (true && _); [discriminate|].
           unfold finish in H. cbn [s_free set_tau set_mu] in H. rewrite F in H.
           injection H as <- <- <-. apply U_reduce; auto. left; reflexivity.
        -- unfold finish in H. rewrite F in H. injection H as <- <- <-.
           apply U_stay; auto. destruct K' as [K'|K']; [exact K' | discriminate].
Qed.

Lemma lower_safe_spec s s1 l : lower_safe q o s = Some (s1, l) ->
  exists i j, s1 = set_init s i j.
Proof.
  unfold lower_safe. intros L. destruct (Req_EM_T (o_safe o) 0).
  { injection L as <- _. exists (s_idi s), (s_ipi s). destruct s; reflexivity. }
  destruct (o_glob o); [destruct (min_ref_val _); [|discriminate]| |]; injection L as <- _; eauto.
Qed.

Lemma new_fixed_spec c s s3 m : new_fixed_mu q o c s = Some (s3, m) ->
  exists i j m1, s3 = set_init s i j /\ m = Rmin (Rmax m1 (s_mumin s)) (s_mumax s).
Proof.
  unfold new_fixed_mu. destruct (lower_safe q o s) as [[s1 l]|] eqn:L; [|discriminate].
  destruct (lower_safe_spec _ L) as (i & j & ->).
  intros H; injection H as <- <-. eauto 6.
Qed.

Definition rem_refs (s : st pt) (r : list R) : Prop :=
  match o_glob o with
  | KKT_ERROR => (length (s_refs s) < o_rediters o /\ r = s_refs s ++ [q_kkt q (s_cur s)])%nat \/
                 exists a t, (o_rediters o <= length (s_refs s))%nat /\ s_refs s = a :: t /\ r = t ++ [q_kkt q (s_cur s)]
  | _ => r = s_refs s
  end.

Lemma remember_spec (s s1 : st pt) : remember q o s = Some s1 ->
  exists r F, s1 = St (s_mumin s) (s_mumax s) (s_idi s) (s_ipi s) r (s_chk s) (s_nob s) F (s_free s)
                     (if o_restore o then Some (s_cur s) else s_acc s) (s_mu s) (s_tau s) (s_cur s) /\
    rem_refs s r /\
    F = match o_glob o with FILTER_OBJ_CONSTR => add_entry (s_filter s) (q_f q (s_cur s)) (q_theta q (s_cur s))
        | _ => s_filter s end.
Proof.
  unfold remember, rem_refs. intros H. destruct s as [mn mx i1 i2 rf ck nb fl fr ac mu tau cu].
  cbn [s_refs s_cur s_filter s_mumin s_mumax s_idi s_ipi s_chk s_nob s_free s_acc s_mu s_tau set_refs set_filter set_acc] in *.
  destruct (o_glob o).
  - destruct (Nat.leb_spec (o_rediters o) (length rf)) as [E|E].
    + destruct rf as [|a t]; [discriminate|]. injection H as <-.
      exists (t ++ [q_kkt q cu]), fl. split; [destruct (o_restore o); reflexivity|].
      split; [right; eauto 6|reflexivity].
    + injection H as <-. exists (rf ++ [q_kkt q cu]), fl. split; [destruct (o_restore o); reflexivity|].
      split; [left; split; [exact E|reflexivity]|reflexivity].
  - injection H as <-. eexists _, _. split; [destruct (o_restore o); reflexivity|].
    split; reflexivity.
  - injection H as <-. eexists _, _. split; [destruct (o_restore o); reflexivity|].
    split; reflexivity.
Qed.

(** What a step does to the fields, whatever the case. *)
Lemma step_fields c s b s' ev : bounded q -> s_nob s = false -> update pw q o c s = Ret b s' ev ->
  s_nob s' = false /\ s_mumin s' = new_min c (s_mumin s) /\ s_mumax s' = new_max c (s_mumax s) /\
  (s_free s' = true ->
     s_cur s' = c_pt c /\ rem_refs (pre c s) (s_refs s') /\
     s_filter s' = match o_glob o with FILTER_OBJ_CONSTR => add_entry (s_filter s) (q_f q (c_pt c)) (q_theta q (c_pt c)) | _ => s_filter s end /\
     s_acc s' = (if o_restore o then Some (c_pt c) else s_acc s)) /\
  (s_free s' = false -> s_refs s' = s_refs s /\ s_filter s' = s_filter s /\ s_acc s' = s_acc s).
Proof.
  intros B N H. pose proof (update_cases c s B N H) as U. destruct U as [s1 K1 K2 K3 M F1 E|F K T L Eb Es|F K L Eb Es R|s2 s3 m F K A M Eb Es R].
  - destruct (remember_spec _ M) as (r & G & E1 & Rr & EG).
    unfold rem_refs in Rr. cbn [s_refs s_cur set_free pre] in Rr.
    cbn [s_mumin s_mumax s_idi s_ipi s_chk s_nob s_free s_acc s_mu s_tau s_cur s_filter s_refs set_free pre] in E1, EG.
    assert (Q : s_nob s' = s_nob s1 /\ s_mumin s' = s_mumin s1 /\ s_mumax s' = s_mumax s1 /\ s_free s' = true /\
                s_cur s' = s_cur s1 /\ s_refs s' = s_refs s1 /\ s_filter s' = s_filter s1 /\ s_acc s' = s_acc s1).
    { destruct E as [(_ & _ & -> & _)|(m & s2 & l & _ & L & _ & -> & _)].
      - subst s1. cbn. auto 10.
      - destruct (lower_safe_spec _ L) as (i & j & ->). subst s1. cbn. auto 10. }
    destruct Q as (Q1 & Q2 & Q3 & Q4 & Q5 & Q6 & Q7 & Q8).
    subst s1. cbn [s_nob s_mumin s_mumax s_cur s_refs s_filter s_acc] in *.
    rewrite Q1, Q2, Q3, Q5, Q6, Q7, Q8, Q4.
    repeat (split; [reflexivity|]). split; [|discriminate]. intros _.
    split; [reflexivity|]. split; [unfold rem_refs; cbn [s_refs s_cur pre]; exact Rr|]. split; [exact EG | reflexivity].
  - subst s'. cbn [pre s_nob s_mumin s_mumax s_free s_refs s_filter s_acc] in *.
    repeat (split; [reflexivity|]). split; [rewrite F; discriminate|]. intros _. auto.
  - subst s'. cbn [pre s_nob s_mumin s_mumax s_free s_refs s_filter s_acc set_tau set_mu] in *.
    repeat (split; [reflexivity|]). split; [rewrite F; discriminate|]. intros _. auto.
  - destruct (new_fixed_spec _ _ M) as (i & j & m1 & -> & _). subst s'.
    destruct A as [(_ & ->)|(_ & p & _ & -> & _)];
    cbn [pre s_nob s_mumin s_mumax s_free s_refs s_filter s_acc set_tau set_mu set_init set_free set_cur] in *;
    (repeat (split; [reflexivity|]); split; [discriminate|]; intros _; auto).
Qed.

(** * The invariant *)
Record inv (l : list (step pt)) (s : st pt) : Prop := {
  i_nob : s_nob s = false;
  i_min : s_mumin s = min_mu o (map t_call l);
  i_max0 : l = [] -> s_mumax s = match o_mumax o with Some v => v | None => -1 end;
  i_kkt : o_glob o = KKT_ERROR -> s_refs s = lastn (o_rediters o) (map (q_kkt q) (accepted l));
  i_fin : o_glob o = FILTER_OBJ_CONSTR -> forall y, In y (accepted l) ->
            exists e, In e (s_filter s) /\ fst e <= q_f q y /\ snd e <= q_theta q y;
  i_fout : o_glob o = FILTER_OBJ_CONSTR -> forall e, In e (s_filter s) ->
            exists y, In y (accepted l) /\ e = (q_f q y, q_theta q y);
  i_acc : o_restore o = true -> s_acc s = hd_error (rev (accepted l));
  i_never : o_glob o = NEVER_MONOTONE_MODE -> s_free s = true
}.

Lemma accepted_snoc (l : list (step pt)) (t : step pt) : accepted (l ++ [t]) =
  accepted l ++ (if s_free (t_after t) then [c_pt (t_call t)] else []).
Proof.
  unfold accepted. rewrite filter_app, map_app. f_equal.
  cbn. destruct (s_free (t_after t)); reflexivity.
Qed.

Lemma min_mu_snoc l c : min_mu o (l ++ [c]) = new_min c (min_mu o l).
Proof.
  unfold min_mu, new_min. destruct (o_mumin_user o); [reflexivity|].
  rewrite fold_left_app. reflexivity.
Qed.

Lemma hist_inv p l s : bounded q -> hist pw q o p l s -> inv l s.
Proof.
  intros B H. induction H as [|l s c b s' ev H IH E].
  - split; cbn; auto; try (intros; contradiction).
  - destruct IH as [N Mn Mx K F1 F2 A Nv].
    destruct (step_fields c s B N E) as (N' & Mn' & Mx' & Fr & Fx).
    assert (Fb : s_free s' = true \/ s_free s' = false) by (destruct (s_free s'); auto).
    split.
    + exact N'.
    + rewrite Mn', Mn, map_app. cbn [map t_call]. rewrite min_mu_snoc. reflexivity.
    + intros Z. destruct l; discriminate.
    + intros G. specialize (K G). rewrite accepted_snoc. cbn [t_after t_call].
      destruct Fb as [Fb|Fb]; rewrite Fb.
      * destruct (Fr Fb) as (_ & Rr & _). unfold rem_refs in Rr. rewrite G in Rr.
        cbn [pre s_refs s_cur] in Rr. rewrite map_app. cbn [map].
        rewrite K in Rr. destruct Rr as [(Q & ->)|(a & t & Q & Q1 & ->)].
        -- symmetry. apply lastn_snoc_short. exact Q.
        -- symmetry. eapply lastn_snoc_full; [exact Q | exact Q1].
      * destruct (Fx Fb) as (Q & _). rewrite Q, app_nil_r. exact K.
    + intros G y Hy. specialize (F1 G). rewrite accepted_snoc in Hy. cbn [t_after t_call] in Hy.
      destruct Fb as [Fb|Fb]; rewrite Fb in Hy.
      * destruct (Fr Fb) as (_ & _ & EF & _). rewrite G in EF. rewrite EF. unfold add_entry.
        apply in_app_or in Hy. destruct Hy as [Hy|[<-|[]]].
        -- destruct (F1 y Hy) as (e & He & L1 & L2).
           destruct (dominated (q_f q (c_pt c)) (q_theta q (c_pt c)) e) eqn:D.
           ++ exists (q_f q (c_pt c), q_theta q (c_pt c)). split; [apply in_or_app; right; left; reflexivity|].
              unfold dominated in D. cbn [fst snd].
              destruct (Rgt_dec (q_f q (c_pt c)) (fst e)); [discriminate|].
              destruct (Rgt_dec (q_theta q (c_pt c)) (snd e)); [discriminate|]. lra.
           ++ exists e. split; [|auto]. apply in_or_app. left. apply filter_In. split; [exact He|]. rewrite D. reflexivity.
        -- eexists. split; [apply in_or_app; right; left; reflexivity|]. cbn. lra.
      * destruct (Fx Fb) as (_ & EF & _). rewrite EF. rewrite app_nil_r in Hy. apply F1. exact Hy.
    + intros G e He. specialize (F2 G). rewrite accepted_snoc. cbn [t_after t_call].
      destruct Fb as [Fb|Fb]; rewrite Fb.
      * destruct (Fr Fb) as (_ & _ & EF & _). rewrite G in EF. rewrite EF in He. unfold add_entry in He.
        apply in_app_or in He. destruct He as [He|[<-|[]]].
        -- apply filter_In in He. destruct (F2 e (proj1 He)) as (y & Hy & Ey). exists y. split; [|exact Ey].
           apply in_or_app; left; exact Hy.
        -- exists (c_pt c). split; [|reflexivity]. apply in_or_app; right; left; reflexivity.
      * destruct (Fx Fb) as (_ & EF & _). rewrite EF in He. rewrite app_nil_r. apply F2. exact He.
    + intros G. rewrite accepted_snoc. cbn [t_after t_call].
      destruct Fb as [Fb|Fb]; rewrite Fb.
      * destruct (Fr Fb) as (_ & _ & _ & EA). rewrite EA, G. rewrite rev_app_distr. reflexivity.
      * destruct (Fx Fb) as (_ & _ & EA). rewrite EA, app_nil_r. apply A. exact G.
    + intros G. pose proof (update_cases c s B N E) as U. specialize (Nv G).
      assert (CP : check_progress q o (pre c s) = true) by (unfold check_progress; rewrite G; reflexivity).
      destruct U as [s1 U1 U2 U3 M F1' Ee|F U1 T L Eb Es|F U1 L Eb Es R|s2 s3 m F U1 A1 M Eb Es R].
      * destruct Ee as [(_ & _ & -> & _)|(m & s2 & l0 & _ & L & _ & -> & _)]; [exact F1'|].
        destruct (lower_safe_spec _ L) as (i & j & ->). exact F1'.
      * cbn [pre s_free] in F. congruence.
      * cbn [pre s_free] in F. congruence.
      * destruct U1 as [U1|(U1 & _)]; congruence.
Qed.

(** The maximal barrier parameter. *)
Lemma hist_max p l s : bounded q -> good_opts pw o ->
  (forall t, hd_error l = Some t -> 0 < q_avrg q (c_pt (t_call t))) ->
  hist pw q o p l s -> l <> [] -> max_mu q o (map t_call l) (s_mumax s) /\ 0 < s_mumax s.
Proof.
  intros B GO Av H. induction H as [|l s c b s' ev H IH E]; [congruence|]. intros _.
  destruct (hist_inv B H) as [N _ Mx _ _ _ _ _].
  destruct (step_fields c s B N E) as (_ & _ & Mx' & _).
  rewrite Mx'. unfold new_max.
  destruct l as [|t l].
  - specialize (Mx eq_refl). rewrite Mx. cbn. unfold max_mu. cbn in Av.
    pose proof (Av _ eq_refl) as P. cbn in P.
    destruct (o_mumax o) as [v|] eqn:V.
    + pose proof (go_max GO V) as Q. destruct (Rlt_dec v 0); [lra|]. split; [reflexivity|exact Q].
    + destruct (Rlt_dec (-1) 0); [|lra]. split; [reflexivity|].
      apply Rmult_lt_0_compat; [exact (go_fact GO)|exact P].
  - destruct (IH Av ltac:(discriminate)) as (IH1 & IH2).
    destruct (Rlt_dec (s_mumax s) 0); [lra|]. split; [|exact IH2].
    rewrite map_app. cbn [map app]. unfold max_mu in *. exact IH1.
Qed.

End Proofs.
