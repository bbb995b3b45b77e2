(** C78, C79: the adaptive barrier parameter update. *)
From Coq Require Import Reals List Bool Arith Lra Lia.
From Verif Require Import AmuModel AmuSpec AmuProofs AmuProofs2.
Import ListNotations.
Open Scope R_scope.

Section C78.
Variable pt : Type.
Variable pw : R -> R -> R.
Variable q : cq pt.
Variable o : opts.
Variable p : pt.
Notation hist := (hist pw q o p).

(** C78: whenever the update sets the barrier parameter in free mode, or switches to fixed
    mode, the new value is at most mu_max, and at least mu_min (or equal to mu_max if that is
    smaller); mu_max is the user's value or mu_max_fact times the average complementarity at
    the very first call, mu_min the user's value or the tolerance based default. *)
Theorem C78_mu_range : forall l t s M,
  bounded q -> good_opts pw o ->
  (forall t0, hd_error (l ++ [t]) = Some t0 -> 0 < q_avrg q (c_pt (t_call t0))) ->
  hist (l ++ [t]) s -> max_mu q o (map t_call (l ++ [t])) M ->
  t_ret t = true -> s_free (t_before t) = true \/ s_free s = true ->
  Rmin (min_mu o (map t_call (l ++ [t]))) M <= s_mu s <= M.
Proof.
  intros l t s M B GO Av H HM Rt Fr.
  pose proof (hist_inv B H) as I.
  destruct (hist_max B GO Av H ltac:(destruct l; discriminate)) as (HM' & _).
  assert (E : M = s_mumax s).
  { unfold max_mu in *. destruct (o_mumax o); [congruence|]. destruct (map t_call (l ++ [t])); [contradiction|congruence]. }
  destruct (hist_snoc_inv l t H) as (s0 & H0 & <- & <- & U).
  pose proof (i_nob (hist_inv B H0)) as N0.
  pose proof (@step_mu pt pw q o _ _ _ _ _ B N0 U) as Z. unfold mu_step in Z.
  rewrite <- (i_min I). subst M. clear HM HM' Av GO I. rewrite Rt in Z.
  destruct Z as [Z|[Z|[Z|[Z|Z]]]]; try (destruct Z as (_ & Z & _); discriminate).
  - destruct Z as (_ & _ & Z1 & Z2 & _). auto.
  - destruct Z as (_ & _ & _ & Z1 & Z2 & _). auto.
  - destruct Z as (Z1 & Z2 & _). destruct Fr; congruence.
  - destruct Z as (Z1 & Z2 & _). destruct Fr; congruence.
Qed.

(** C78: in fixed mode the barrier parameter changes only when the current barrier problem is
    solved to barrier_tol_factor times mu or a tiny step was detected; then it becomes the
    smaller of mu_linear_decrease_factor times mu and mu to the power
    mu_superlinear_decrease_power, but not less than the smaller tolerance divided by
    barrier_tol_factor + 1. Otherwise mu and tau stay. *)
Theorem C78_fixed_mode : forall l t s,
  bounded q -> hist (l ++ [t]) s ->
  s_free (t_before t) = false -> s_free s = false ->
  let m := s_mu (t_before t) in
  let solved := q_berr q (c_pt (t_call t)) m <= o_btol o * m \/ c_tiny (t_call t) = true in
  (solved -> s_mu s = Rmax (Rmin (o_lin o * m) (pw m (o_pow o))) (floor_mu o (t_call t))) /\
  (~ solved -> s_mu s = m /\ s_tau s = s_tau (t_before t)).
Proof.
  intros l t s B H F1 F2 m solved.
  destruct (hist_snoc_inv l t H) as (s0 & H0 & <- & <- & U).
  pose proof (i_nob (hist_inv B H0)) as N0.
  pose proof (@step_mu pt pw q o _ _ _ _ _ B N0 U) as Z. unfold mu_step in Z.
  destruct Z as [Z|[Z|[Z|[Z|Z]]]]; try (destruct Z as (Z & _); congruence).
  - destruct Z as (_ & _ & _ & T & L & E1 & E2). fold m in L. split.
    + unfold solved. intros [Q|Q]; [lra|congruence].
    + intros _. auto.
  - destruct Z as (_ & _ & _ & L & E1 & E2). fold m in L, E1, E2. split.
    + intros _. exact E1.
    + unfold solved. intros Q. destruct Q. tauto.
Qed.

(** C78: the barrier parameter is positive after every call, and before the first. *)
Theorem C78_mu_positive : forall l s,
  bounded q -> good_opts pw o -> Forall (fun t => good_call (t_call t)) l ->
  (forall t0, hd_error l = Some t0 -> 0 < q_avrg q (c_pt (t_call t0))) ->
  hist l s -> 0 < s_mu s.
Proof.
  intros l s B GO GC Av H.
  assert (MP : forall l, Forall (fun t => good_call (t_call t)) l -> 0 < min_mu o (map (@t_call pt) l)).
  { clear -GO. intros l. unfold min_mu. destruct (o_mumin_user o); [intros _; exact (go_min GO)|].
    assert (P0 : 0 < (if o_resto o then 100 * o_mumin o else o_mumin o))
      by (pose proof (go_min GO); destruct (o_resto o); lra).
    revert P0. generalize (if o_resto o then 100 * o_mumin o else o_mumin o).
    induction l as [|t l IH]; intros a A F; [exact A|]. inversion F as [|t' l' [T1 T2] F']. cbn [map fold_left].
    apply IH; [|exact F']. apply Rmin_glb_lt; [exact A|].
    pose proof (Rmin_glb_lt _ _ _ T1 T2). lra. }
  induction H as [|l s c b s' ev H IH U]; [cbn; lra|].
  assert (GC0 : Forall (fun t => good_call (t_call t)) l) by (apply Forall_app in GC; tauto).
  assert (G : good_call c).
  { apply Forall_app in GC. destruct GC as [_ GC]. inversion GC. assumption. }
  assert (P : 0 < s_mu s).
  { apply IH; [exact GC0|]. intros t0 E. apply Av. destruct l; [discriminate|exact E]. }
  pose proof (hist_step c H U) as H'.
  destruct (hist_max B GO Av H' ltac:(destruct l; discriminate)) as (_ & PM).
  pose proof (hist_inv B H') as I'. pose proof (MP _ GC) as Pm. rewrite <- (i_min I') in Pm.
  pose proof (Rmin_glb_lt _ _ _ Pm PM) as Pmm.
  pose proof (@step_mu pt pw q o _ _ _ _ _ B (i_nob (hist_inv B H)) U) as Z. unfold mu_step in Z.
  destruct Z as [Z|[Z|[Z|[Z|Z]]]].
  - destruct Z as (_ & _ & -> & _). exact P.
  - destruct Z as (_ & _ & _ & Z & _). lra.
  - destruct Z as (_ & _ & _ & _ & Z & _). lra.
  - destruct Z as (_ & _ & _ & _ & _ & -> & _). exact P.
  - destruct Z as (_ & _ & _ & _ & -> & _).
    eapply Rlt_le_trans; [|apply Rmax_r]. unfold floor_mu.
    destruct G as [T1 T2]. pose proof (Rmin_glb_lt _ _ _ T2 T1). pose proof (go_btol GO).
    apply Rdiv_lt_0_compat; lra.
Qed.

(** C78: bounds that hold over the whole history. The barrier parameter, which is 1 before
    the first call, never leaves the interval spanned by 1, mu_min, mu_max and the limits of
    the reductions in fixed mode. *)
Theorem C78_mu_bounded : forall l s L U,
  bounded q -> good_opts pw o -> Forall (fun t => good_call (t_call t)) l ->
  (forall t0, hd_error l = Some t0 -> 0 < q_avrg q (c_pt (t_call t0))) ->
  hist l s ->
  L <= 1 <= U -> L <= min_mu o (map t_call l) ->
  (forall t, In t l -> L <= floor_mu o (t_call t) <= U) ->
  (l <> [] -> forall M, max_mu q o (map t_call l) M -> L <= M <= U) ->
  L <= s_mu s <= U.
Proof.
  intros l s L U B GO GC Av H L1 Lm Lf LM.
  assert (GCs := GC). assert (Avs := Av).
  induction H as [|l s c b s' ev H IH Up]; [exact L1|].
  assert (GC0 : Forall (fun t => good_call (t_call t)) l) by (apply Forall_app in GC; tauto).
  assert (Av0 : forall t0, hd_error l = Some t0 -> 0 < q_avrg q (c_pt (t_call t0))).
  { intros t0 E. apply Av. destruct l; [discriminate|exact E]. }
  pose proof (C78_mu_positive l s B GO GC0 Av0 H) as Pos.
  pose proof (hist_step c H Up) as H'.
  pose proof (hist_max B GO Av H' ltac:(destruct l; discriminate)) as (HM & _).
  specialize (LM ltac:(destruct l; discriminate) _ HM).
  pose proof (i_min (hist_inv B H')) as Em.
  assert (IH' : L <= s_mu s <= U).
  { apply IH; auto.
    - eapply Rle_trans; [exact Lm|]. rewrite map_app. cbn [map t_call]. rewrite (min_mu_snoc o (map (@t_call pt) l) c).
      unfold new_min. destruct (o_mumin_user o); [lra|apply Rmin_l].
    - intros t Ht. apply Lf. apply in_or_app; left; exact Ht.
    - intros Ne M M1. assert (M = s_mumax s') by
        (unfold max_mu in *; destruct (o_mumax o); [congruence|]; destruct l; [congruence|]; cbn in *; congruence).
      subst M. exact LM. }
  pose proof (Lf (Step c s b s' ev) ltac:(apply in_or_app; right; left; reflexivity)) as Fl. cbn [t_call] in Fl.
  rewrite <- Em in Lm. assert (Lmm : L <= Rmin (s_mumin s') (s_mumax s')) by (apply Rmin_glb; lra).
  pose proof (@step_mu pt pw q o _ _ _ _ _ B (i_nob (hist_inv B H)) Up) as Z. unfold mu_step in Z.
  destruct Z as [Z|[Z|[Z|[Z|Z]]]].
  - destruct Z as (_ & _ & -> & _). exact IH'.
  - destruct Z as (_ & _ & Z1 & Z & _). lra.
  - destruct Z as (_ & _ & _ & Z1 & Z & _). lra.
  - destruct Z as (_ & _ & _ & _ & _ & -> & _). exact IH'.
  - destruct Z as (_ & _ & _ & _ & -> & _). split.
    + eapply Rle_trans; [|apply Rmax_r]. lra.
    + apply Rmax_lub; [|lra]. eapply Rle_trans; [apply Rmin_l|].
      pose proof (go_lin GO). apply Rle_trans with (s_mu s); [|lra].
      rewrite <- (Rmult_1_l (s_mu s)) at 2. apply Rmult_le_compat_r; lra.
Qed.

(** C78: the fraction-to-the-boundary parameter is between tau_min and 1 after every call. *)
Theorem C78_tau_range : forall l s,
  bounded q -> good_opts pw o -> Forall (fun t => good_call (t_call t)) l ->
  (forall t0, hd_error l = Some t0 -> 0 < q_avrg q (c_pt (t_call t0))) ->
  (forall x, 0 <= q_nlp q x) ->
  hist l s -> l <> [] -> o_taumin o <= s_tau s <= 1.
Proof.
  intros l s B GO GC Av NL H.
  assert (MX : forall a, 0 <= a -> o_taumin o <= Rmax (o_taumin o) (1 - a) <= 1).
  { intros a A. split; [apply Rmax_l|]. pose proof (go_tau GO). apply Rmax_lub; lra. }
  induction H as [|l s c b s' ev H IH Up]; [congruence|]. intros _.
  assert (GC0 : Forall (fun t => good_call (t_call t)) l) by (apply Forall_app in GC; tauto).
  assert (Av0 : forall t0, hd_error l = Some t0 -> 0 < q_avrg q (c_pt (t_call t0))).
  { intros t0 E. apply Av. destruct l; [discriminate|exact E]. }
  pose proof (C78_mu_positive l s B GO GC0 Av0 H) as Pos.
  pose proof (C78_mu_positive _ _ B GO GC Av (hist_step c H Up)) as Pos'.
  pose proof (@step_mu pt pw q o _ _ _ _ _ B (i_nob (hist_inv B H)) Up) as Z. unfold mu_step in Z.
  destruct Z as [Z|[Z|[Z|[Z|Z]]]].
  - destruct Z as (_ & _ & _ & ->). apply MX. apply NL.
  - destruct Z as (_ & _ & _ & _ & ->). apply MX. apply NL.
  - destruct Z as (_ & _ & _ & _ & _ & ->). apply MX. lra.
  - destruct Z as (Zf & _ & _ & _ & _ & _ & ->).
    destruct l as [|t l]; [inversion H; subst; [discriminate|destruct l; discriminate]|].
    apply IH; [exact GC0|exact Av0|discriminate].
  - destruct Z as (_ & _ & _ & _ & _ & ->). apply MX. lra.
Qed.

(** C78: a problem without bounds gets the mu_min of the first call and tau_min; the update
    returns true and touches nothing else. *)
Theorem C78_no_bounds : forall l s t0,
  unbounded q -> hist l s -> hd_error l = Some t0 ->
  s_mu s = min_mu o [t_call t0] /\ s_tau s = o_taumin o /\ s_free s = true /\
  (forall t, In t l -> t_ret t = true /\ t_ev t = []).
Proof.
  intros l s t0 B H.
  assert (P : match l with
    | [] => s_chk s = false /\ s_nob s = false /\ s_free s = true /\ s_mumin s = @min_mu pt o []
    | t0 :: _ => s_chk s = true /\ s_nob s = true /\ s_mu s = min_mu o [t_call t0] /\ s_tau s = o_taumin o /\ s_free s = true /\
        (forall t, In t l -> t_ret t = true /\ t_ev t = [])
    end).
  { clear t0. induction H as [|l s c b s' ev H IH Up].
    - repeat split.
    - unfold update in Up.
      destruct l as [|t0 l].
      + destruct IH as (C & N & F & Mn).
        assert (E : s_nob (upd_bounds q o (upd_limits q o c (set_cur s (c_pt c)))) = true).
        { unfold upd_bounds, upd_limits. destruct (o_mumin_user o); cbn;
            (destruct (Rlt_dec (s_mumax s) 0); cbn; rewrite C; cbn; rewrite (B (c_pt c)); reflexivity). }
        rewrite E in Up. injection Up as <- <- <-. cbn [app t_call].
        unfold upd_bounds, upd_limits, min_mu. unfold min_mu in Mn. destruct (o_mumin_user o); cbn;
            (destruct (Rlt_dec (s_mumax s) 0); cbn; rewrite C; cbn; rewrite (B (c_pt c)); cbn; repeat split; auto;
             try (f_equal; exact Mn); try (destruct H0 as [<-|[]]; reflexivity)).
      + destruct IH as (C & N & M & T & F & Fa).
        assert (E : s_nob (upd_bounds q o (upd_limits q o c (set_cur s (c_pt c)))) = true).
        { unfold upd_bounds, upd_limits. destruct (o_mumin_user o); cbn;
            (destruct (Rlt_dec (s_mumax s) 0); cbn; rewrite C; exact N). }
        rewrite E in Up. injection Up as <- <- <-. cbn [app].
        assert (Q : forall t, In t (t0 :: l ++ [Step c s true (upd_bounds q o (upd_limits q o c (set_cur s (c_pt c)))) []]) -> t_ret t = true /\ t_ev t = []).
        { intros t Ht. change (t0 :: l ++ ?a) with ((t0 :: l) ++ a) in Ht. apply in_app_or in Ht.
          destruct Ht as [Ht|[<-|[]]]; [exact (Fa _ Ht)|split; reflexivity]. }
        clear Fa.
        assert (Z : let u := upd_bounds q o (upd_limits q o c (set_cur s (c_pt c))) in
          s_chk u = true /\ s_nob u = true /\ s_mu u = s_mu s /\ s_tau u = s_tau s /\ s_free u = s_free s).
        { cbv zeta. unfold upd_bounds, upd_limits. destruct (o_mumin_user o); cbn;
            (destruct (Rlt_dec (s_mumax s) 0); cbn; rewrite C; cbn; repeat split; auto). }
        cbv zeta in Z. destruct Z as (Z1 & Z2 & Z3 & Z4 & Z5).
        rewrite Z1, Z2, Z3, Z4, Z5. repeat (split; [assumption || reflexivity|]). exact Q. }
  destruct l; [discriminate|]. intros E. injection E as <-. destruct P as (_ & _ & P). exact P.
Qed.

End C78.

Section C79.
Variable pt : Type.
Variable pw : R -> R -> R.
Variable q : cq pt.
Variable o : opts.
Variable p : pt.
Notation hist := (hist pw q o p).

(** C79: when the mode is free. After a call the mode is free exactly if the current iterate
    made enough progress over the points accepted in free mode so far, no tiny step was
    detected, and (if the mode was free) the line search was not skipped; with
    never-monotone-mode it is free always. *)
Theorem C79_mode_iff : forall l t s,
  bounded q -> hist (l ++ [t]) s ->
  (s_free s = true <->
     o_glob o = NEVER_MONOTONE_MODE \/
     (progress q o (accepted l) (c_pt (t_call t)) /\ c_tiny (t_call t) = false /\
      (s_free (t_before t) = true -> c_skip (t_call t) = false))).
Proof.
  intros l t s B H. destruct (hist_snoc_inv l t H) as (s0 & H0 & E1 & E2 & U). subst s0.
  pose proof (@step_mode pt pw q o _ _ _ _ _ _ B (hist_inv B H0) U) as Z. rewrite Z.
  split.
  - intros (P & Q). destruct (o_glob o) eqn:G; [right|right|left; reflexivity]; (split; [exact P|]; apply Q; discriminate).
  - intros [G|(P & Q)].
    + split; [unfold progress; rewrite G; exact Logic.I | congruence].
    + split; [exact P|]. intros _. exact Q.
Qed.

(** C79: the kkt-error strategy. Of the errors at the points accepted in free mode, every one
    (but the first adaptive_mu_kkterror_red_iters) is smaller by the factor
    adaptive_mu_kkterror_red_fact than one of the adaptive_mu_kkterror_red_iters errors before
    it. *)
Theorem C79_kkt_reduction : forall l s i x,
  bounded q -> hist l s -> o_glob o = KKT_ERROR ->
  nth_error (accepted l) i = Some x -> (o_rediters o <= i)%nat ->
  exists j y, (i - o_rediters o <= j < i)%nat /\ nth_error (accepted l) j = Some y /\
              q_kkt q x <= o_redfact o * q_kkt q y.
Proof.
  intros l s i x B H G Hx L. pose proof (accepted_progress B H i Hx) as P.
  unfold progress in P. rewrite G in P.
  assert (Li : (i < length (accepted l))%nat) by (apply nth_error_Some; congruence).
  assert (FL : length (firstn i (accepted l)) = i) by (apply firstn_length_le; lia).
  destruct P as [P|(j & y & Y & Lj & P)]; [rewrite FL in P; lia|].
  rewrite FL in Lj.
  assert (j < i)%nat by (rewrite <- FL; apply nth_error_Some; congruence).
  exists j, y. split; [lia|]. split; [|exact P].
  rewrite <- Y. rewrite <- (firstn_skipn i (accepted l)) at 1. apply nth_error_app1. rewrite FL. assumption.
Qed.

(** C79: hence the errors at the accepted points fall geometrically... *)
Theorem C79_kkt_geometric : forall l s M,
  bounded q -> hist l s -> o_glob o = KKT_ERROR -> (1 <= o_rediters o)%nat -> 0 < o_redfact o < 1 -> 0 <= M ->
  (forall i x, nth_error (accepted l) i = Some x -> (i < o_rediters o)%nat -> q_kkt q x <= M) ->
  forall i x, nth_error (accepted l) i = Some x -> q_kkt q x <= o_redfact o ^ (i / o_rediters o) * M.
Proof.
  intros l s M B H G N Rf M0 H0 i x Hx.
  apply (@geometric (map (q_kkt q) (accepted l)) (o_rediters o) (o_redfact o) M); auto.
  - intros k y Hy L. rewrite nth_error_map in Hy. destruct (nth_error (accepted l) k) as [z|] eqn:Z; [|discriminate].
    injection Hy as <-. exact (H0 _ _ Z L).
  - intros k y Hy L. rewrite nth_error_map in Hy. destruct (nth_error (accepted l) k) as [z|] eqn:Z; [|discriminate].
    injection Hy as <-. destruct (C79_kkt_reduction l s k z B H G Z L) as (j & y & Lj & Y & Q).
    exists j, (q_kkt q y). rewrite nth_error_map, Y. auto.
  - rewrite nth_error_map, Hx. reflexivity.
Qed.

(** C79: ... and an algorithm whose error does not go to zero accepts only finitely many points
    in free mode: for every eps > 0 there is a number of accepted points, the same for all
    histories, after which the error at every accepted point is below eps. *)
Theorem C79_kkt_to_zero : forall M eps,
  bounded q -> o_glob o = KKT_ERROR -> (1 <= o_rediters o)%nat -> 0 < o_redfact o < 1 -> 0 <= M -> 0 < eps ->
  exists k, forall l s,
    hist l s ->
    (forall i x, nth_error (accepted l) i = Some x -> (i < o_rediters o)%nat -> q_kkt q x <= M) ->
    forall i x, nth_error (accepted l) i = Some x -> (k <= i)%nat -> q_kkt q x < eps.
Proof.
  intros M eps B G N Rf M0 E.
  destruct (pow_small N Rf M0 E) as (k & K). exists k. intros l s H H0 i x Hx L.
  eapply Rle_lt_trans; [exact (C79_kkt_geometric l s M B H G N Rf M0 H0 i x Hx)|].
  apply K. exact L.
Qed.

(** C79: the filter strategy. Every point accepted in free mode improves on every point accepted
    before it, in the objective or in the constraint violation, by a margin. *)
Theorem C79_filter_progress : forall l s i j x y,
  bounded q -> hist l s -> o_glob o = FILTER_OBJ_CONSTR ->
  nth_error (accepted l) i = Some y -> nth_error (accepted l) j = Some x -> (i < j)%nat ->
  let m := o_marginfact o * Rmin (o_maxmargin o) (q_nlp q x) in
  q_f q x + m <= q_f q y \/ q_theta q x + m <= q_theta q y.
Proof.
  intros l s i j x y B H G Hy Hx L m. pose proof (accepted_progress B H j Hx) as P.
  unfold progress in P. rewrite G in P. apply P.
  apply nth_error_In with (n := i).
  assert (Lj : (j < length (accepted l))%nat) by (apply nth_error_Some; congruence).
  assert (FL : length (firstn j (accepted l)) = j) by (apply firstn_length_le; lia).
  rewrite <- Hy. rewrite <- (firstn_skipn j (accepted l)) at 2. symmetry. apply nth_error_app1. lia.
Qed.

(** C79: never-monotone-mode never leaves the free mode. *)
Theorem C79_never_monotone : forall l s,
  bounded q -> hist l s -> o_glob o = NEVER_MONOTONE_MODE -> s_free s = true.
Proof. intros l s B H G. exact (i_never (hist_inv B H) G). Qed.

(** C79: the line search is reset whenever the barrier parameter changes. *)
Theorem C79_reset_on_change : forall l t s,
  bounded q -> hist (l ++ [t]) s -> s_mu s <> s_mu (t_before t) -> In (EReset pt) (t_ev t).
Proof.
  intros l t s B H D. destruct (hist_snoc_inv l t H) as (s0 & H0 & E1 & E2 & Up). subst s0.
  pose proof (@update_cases pt pw q o _ _ _ _ _ B (i_nob (hist_inv B H0)) Up) as U.
  destruct U as [s1 K1 K2 K3 M F1 E|F K T L Eb Es|F K L Eb Es R|s2 s3 m F K A M Eb Es R]; auto.
  - destruct E as [(_ & _ & -> & _)|(m & s2 & l0 & _ & _ & _ & _ & R)]; [|exact R].
    destruct (@remember_spec pt q o _ _ M) as (r & Fl & -> & _). destruct D. reflexivity.
  - rewrite Es in D. destruct D. reflexivity.
Qed.

(** C79: the iterate. A switch to fixed mode with adaptive_mu_restore_previous_iterate goes back
    to the point accepted last; every other call leaves the iterate alone. *)
Theorem C79_iterate : forall l t s,
  bounded q -> hist (l ++ [t]) s ->
  if o_restore o && s_free (t_before t) && negb (s_free s)
  then hd_error (rev (accepted l)) = Some (s_cur s) /\ In (EAccept (s_cur s)) (t_ev t)
  else s_cur s = c_pt (t_call t).
Proof.
  intros l t s B H. destruct (hist_snoc_inv l t H) as (s0 & H0 & E1 & E2 & Up). subst s0.
  pose proof (hist_inv B H0) as I.
  pose proof (@update_cases pt pw q o _ _ _ _ _ B (i_nob I) Up) as U.
  destruct U as [s1 K1 K2 K3 M F1 E|F K T L Eb Es|F K L Eb Es R|s2 s3 m F K A M Eb Es R]; auto.
  - assert (X : s_free s = true /\ s_cur s = c_pt (t_call t)).
    { destruct (@remember_spec pt q o _ _ M) as (r & Fl & -> & _). cbn in F1.
      destruct E as [(_ & _ & -> & _)|(m & s2 & l0 & _ & L & _ & -> & _)]; [split; reflexivity|].
      destruct (@lower_safe_spec pt q o _ _ _ L) as (i & j & ->). split; reflexivity. }
    destruct X as (-> & ->). rewrite andb_false_r. reflexivity.
  - rewrite Es. cbn [pre s_free s_cur] in *. rewrite F, andb_false_r. reflexivity.
  - rewrite Es. cbn [pre s_free s_cur set_tau set_mu] in *. rewrite F, andb_false_r. reflexivity.
  - destruct (@new_fixed_spec pt q o _ _ _ _ M) as (i & j & m1 & -> & _). rewrite Es.
    cbn [pre s_free] in F. rewrite F.
    destruct A as [(Rs & ->)|(Rs & x & Ax & -> & Ex)]; rewrite Rs; cbn [set_tau set_mu set_init set_free set_cur s_free s_cur andb negb pre].
    + reflexivity.
    + split; [|exact Ex]. rewrite <- (i_acc I Rs). exact Ax.
Qed.

(** C79: no undefined behaviour: if at least one reference value is kept and the first call is
    neither after a tiny step nor after a skipped line search, no call reads from an empty list
    or follows a null pointer. *)
Theorem C79_defined : forall l s c,
  bounded q -> hist l s -> (1 <= o_rediters o)%nat ->
  (forall c0, hd_error (map t_call l ++ [c]) = Some c0 -> c_tiny c0 = false /\ c_skip c0 = false) ->
  update pw q o c s <> Undef pt.
Proof.
  intros l s c B H N F0. pose proof (hist_inv B H) as I.
  apply (@update_defined pt pw q o c s B (i_nob I) N).
  destruct l as [|t l].
  - destruct (F0 c eq_refl) as (T & Sk). left. inversion H as [|l' a b d e f g h]; [|destruct l'; discriminate].
    repeat split; auto. unfold check_progress, pre. cbn.
    destruct (o_glob o); try reflexivity. destruct (o_rediters o); [lia|reflexivity].
  - right.
    assert (X : exists s1, hist [t] s1).
    { clear -H. remember (t :: l) as l0 eqn:E. revert t l E.
      induction H as [|l0 s c b s' ev H IH U]; intros t l E; [discriminate|].
      destruct l0 as [|t0 l0]; cbn in E.
      - injection E as <- <-. exists s'. apply (hist_step c H U).
      - injection E as <- E. apply (IH t0 l0 eq_refl). }
    destruct X as (s1 & H1). pose proof (C79_mode_iff [] t s1 B H1) as Z.
    destruct (hist_snoc_inv [] t H1) as (s00 & H00 & E1 & E2 & _).
    destruct (F0 (t_call t) eq_refl) as (T & Sk).
    assert (F : s_free s1 = true).
    { apply Z. right. split; [|split; [exact T|intros _; exact Sk]].
      unfold progress. destruct (o_glob o); [left; cbn; lia| intros y []| exact Logic.I]. }
    assert (A : accepted (t :: l) <> []) by (unfold accepted; cbn; rewrite E2, F; discriminate).
    split.
    + intros G. rewrite (i_kkt I G). intros Z2.
      assert (LZ : length (lastn (o_rediters o) (map (q_kkt q) (accepted (t :: l)))) = 0%nat) by (rewrite Z2; reflexivity).
      unfold lastn in LZ. rewrite skipn_length, map_length in LZ. destruct (accepted (t :: l)); [congruence|cbn [length] in LZ; lia].
    + intros G. rewrite (i_acc I G). destruct (accepted (t :: l)) as [|a r] eqn:Ea; [congruence|].
      cbn. destruct (rev r); discriminate.
Qed.

(** C79: the exception TINY_STEP_DETECTED is thrown only after a tiny step, with the barrier
    parameter as it was. *)
Theorem C79_tiny_step : forall l s c s',
  bounded q -> hist l s -> update pw q o c s = Tiny s' -> c_tiny c = true /\ s_mu s' = s_mu s.
Proof.
  intros l s c s' B H U. pose proof (i_nob (hist_inv B H)) as N.
  unfold update in U. rewrite (pre_eq o c s B N) in U.
  change (s_nob (pre q o c s)) with false in U. cbv iota in U. change (s_mu s) with (s_mu (pre q o c s)).
  set (x := pre q o c s) in *. clearbody x. clear H N B.
  assert (FT : forall a ev, finish q o c a ev = Tiny s' -> False).
  { intros a ev. unfold finish. destruct (s_free a); [|discriminate].
    destruct (c_free c _ _); [|discriminate]. destruct (lower_safe q o _) as [[b l0]|]; [|discriminate].
    destruct (if Rlt_dec _ l0 then _ else _); discriminate. }
  destruct (s_free x); cbn [negb] in U; cbv zeta in U.
  - destruct (match o_glob o with NEVER_MONOTONE_MODE => _ | _ => _ end).
    + destruct (remember q o x); [|discriminate]. destruct (FT _ _ U).
    + destruct (if o_restore o then _ else _) as [[s2 ev]|] eqn:Rs; [|discriminate].
      destruct (new_fixed_mu q o c s2) as [[s3 m]|] eqn:M; [|discriminate].
      destruct (c_tiny c); cbn [andb] in U; [|destruct (FT _ _ U)].
      destruct (if Req_EM_T m (s_mu s3) then true else false); [|destruct (FT _ _ U)].
      injection U as <-. split; [reflexivity|].
      destruct (@new_fixed_spec pt q o _ _ _ _ M) as (i & j & m1 & -> & _).
      destruct (o_restore o); [cbn in Rs; destruct (s_acc x); [|discriminate]|]; injection Rs as <- _; reflexivity.
  - destruct (check_progress q o x && negb (c_tiny c)).
    + destruct (remember q o (set_free x true)); [|discriminate]. destruct (FT _ _ U).
    + destruct ((if Rle_dec _ _ then true else false) || c_tiny c); [|destruct (FT _ _ U)].
      destruct (c_tiny c); cbn [andb] in U; [|destruct (FT _ _ U)].
      destruct (if Req_EM_T _ (s_mu x) then true else false); [|destruct (FT _ _ U)].
      injection U as <-. split; reflexivity.
Qed.

End C79.

(** C79: the error of the kkt-error strategy is a measure of the optimality error: never
    negative, and zero only if the infeasibilities and the complementarity are zero. *)
Theorem C79_kkt_error_measures : forall k ce bal nd np nc d pr c xi,
  (forall v, In v [d; pr; c] -> 0 <= n_1 v /\ 0 <= n_2 v /\ 0 <= n_max v) ->
  (forall v, In v [d; pr; c] -> (n_1 v = 0 <-> n_2 v = 0) /\ (n_1 v = 0 <-> n_max v = 0)) ->
  0 < xi <= 1 ->
  0 <= kkt_error k ce bal nd np nc d pr c xi /\
  (kkt_error k ce bal nd np nc d pr c xi = 0 <-> n_1 d = 0 /\ n_1 pr = 0 /\ n_1 c = 0).
Proof.
  intros k ce bal nd np nc d pr c xi NN ZZ X.
  assert (SC : forall v n, In v [d; pr; c] -> 0 <= scaled k v n /\ (scaled k v n = 0 <-> n_1 v = 0)).
  { intros v n Hv. destruct (NN v Hv) as (A1 & A2 & A3). destruct (ZZ v Hv) as (Z1 & Z2).
    assert (DV : forall a r, 0 <= a -> 0 < r -> 0 <= a / r /\ (a / r = 0 <-> a = 0)).
    { intros a r A Pr. split; [apply Rmult_le_pos; [exact A|left; apply Rinv_0_lt_compat; exact Pr]|].
      split; [|intros ->; unfold Rdiv; apply Rmult_0_l].
      intros Q. apply (Rmult_eq_compat_r r) in Q. unfold Rdiv in Q. rewrite Rmult_assoc, Rinv_l, Rmult_0_l, Rmult_1_r in Q by lra. exact Q. }
    assert (SQ : 0 <= n_2 v * n_2 v /\ (n_2 v * n_2 v = 0 <-> n_2 v = 0)).
    { split; [apply Rmult_le_pos; exact A2|]. split; [intros Q; destruct (Rmult_integral _ _ Q); assumption|intros ->; ring]. }
    destruct SQ as (S1 & S2).
    unfold scaled. destruct k.
    - destruct (Nat.eqb_spec n 0) as [->|Nz]; [tauto|]. apply DV; [exact A1|]. apply lt_0_INR. lia.
    - destruct (Nat.eqb_spec n 0) as [->|Nz]; [tauto|].
      destruct (DV _ (INR n) S1 ltac:(apply lt_0_INR; lia)). tauto.
    - tauto.
    - destruct (Nat.eqb_spec n 0) as [->|Nz]; [tauto|].
      destruct (DV _ (sqrt (INR n)) A2 ltac:(apply sqrt_lt_R0; apply lt_0_INR; lia)). tauto. }
  destruct (SC d nd ltac:(cbn; tauto)) as (D1 & D2).
  destruct (SC pr np ltac:(cbn; tauto)) as (P1 & P2).
  destruct (SC c nc ltac:(cbn; tauto)) as (C1 & C2).
  unfold kkt_error. clear SC NN ZZ.
  set (di := scaled k d nd) in *. set (pi := scaled k pr np) in *. set (co := scaled k c nc) in *.
  assert (LN : ln xi <= 0).
  { destruct X as (X1 & [X2|X2]); [|rewrite X2, ln_1; lra]. left. rewrite <- ln_1. apply ln_increasing; assumption. }
  assert (CE : 0 <= match ce with CEN_NONE => 0 | CEN_LOG => - co * ln xi | CEN_RECIPROCAL => co / xi
                    | CEN_CUBED_RECIPROCAL => co / (xi ^ 3) end /\
               (co = 0 -> match ce with CEN_NONE => 0 | CEN_LOG => - co * ln xi | CEN_RECIPROCAL => co / xi
                    | CEN_CUBED_RECIPROCAL => co / (xi ^ 3) end = 0)).
  { split.
    - destruct ce; [lra| | |].
      + replace (- co * ln xi) with (co * - ln xi) by ring. apply Rmult_le_pos; lra.
      + apply Rmult_le_pos; [exact C1|]. left; apply Rinv_0_lt_compat; lra.
      + apply Rmult_le_pos; [exact C1|]. left; apply Rinv_0_lt_compat; apply pow_lt; lra.
    - intros ->. destruct ce; unfold Rdiv; ring. }
  destruct CE as (CE1 & CE2).
  assert (BA : 0 <= (if bal then Rmax 0 (Rmax di pi - co) ^ 3 else 0) /\
               (di = 0 -> pi = 0 -> co = 0 -> (if bal then Rmax 0 (Rmax di pi - co) ^ 3 else 0) = 0)).
  { split.
    - destruct bal; [|lra]. apply pow_le. apply Rmax_l.
    - intros -> -> ->. destruct bal; [|reflexivity].
      rewrite (Rmax_left 0 0), Rminus_0_r, (Rmax_left 0 0) by lra. ring. }
  destruct BA as (BA1 & BA2).
  split; [lra|]. split.
  - intros Q. assert (di = 0) by lra. assert (pi = 0) by lra. assert (co = 0) by lra. tauto.
  - intros (Q1 & Q2 & Q3). assert (E1 : di = 0) by tauto. assert (E2 : pi = 0) by tauto. assert (E3 : co = 0) by tauto.
    rewrite (CE2 E3), (BA2 E1 E2 E3). lra.
Qed.

(** * Concrete runs *)
Local Arguments IZR : simpl never.
Local Arguments pow : simpl never.
Definition ex_q : cq unit := Cq (fun _ => 1) (fun _ => 0) (fun _ => 0) (fun _ => 1) (fun _ => 1)
  (fun _ => 0) (fun _ => 0) (fun _ => 1%nat) (fun _ _ => 0).
Definition ex_o (g : glob) (n : nat) (rest : bool) (safe : R) : opts :=
  Opts 1000 None (/ 10) safe (/ 2) n g 1 (/ 100) rest (8 / 10) 10 (2 / 10) (3 / 2)
       (/ 10) true false 0 false.
Definition ex_c : call unit := Call tt (/ 1000) (/ 1000) false false (fun _ _ => Some (/ 2)) (fun _ _ => None).
Definition ex_pw (m _ : R) : R := m.

Definition ex_s1 : st unit := St (/ 10) 1000 (-1) (-1) [] true false [(0, 0)] true None (/ 2) (/ 10) tt.
Definition ex_s2 : st unit := St (/ 10) 1000 (-1) (-1) [] true false [(0, 0)] false None (8 / 10) (2 / 10) tt.
Definition ex_s3 : st unit := St (/ 10) 1000 (-1) (-1) [] true false [(0, 0)] false None (16 / 100) (2 / 10) tt.
Definition ex_s4 : st unit := St (/ 10) 1000 (-1) (-1) [] true false [(0, 0)] false None (32 / 1000) (84 / 100) tt.

Ltac rcalc := repeat match goal with
  | |- context [Rmin ?a ?b] => (rewrite (Rmin_left a b) by lra) || (rewrite (Rmin_right a b) by lra)
  | |- context [Rmax ?a ?b] => (rewrite (Rmax_left a b) by lra) || (rewrite (Rmax_right a b) by lra)
  | |- context [Rle_dec ?a ?b] => destruct (Rle_dec a b); try lra
  | |- context [Rlt_dec ?a ?b] => destruct (Rlt_dec a b); try lra
  | |- context [Rgt_dec ?a ?b] => destruct (Rgt_dec a b); try lra
  | |- context [Req_EM_T ?a ?b] => destruct (Req_EM_T a b); try lra
  end.
Lemma ex_big : 100 <= / 10 * 10 ^ 20.
Proof.
  assert (1 <= 10 ^ 17) by (apply pow_R1_Rle; lra).
  replace (10 ^ 20) with (10 ^ 17 * 10 ^ 3) by (rewrite <- pow_add; reflexivity). lra.
Qed.
Definition ex_k (e : R) : cq R := Cq (fun _ => 1) (fun _ => 0) (fun _ => 0) (fun x => x) (fun _ => 1)
  (fun _ => 0) (fun _ => 0) (fun _ => 1%nat) (fun _ _ => e).
Ltac red_update := cbv beta iota zeta delta [
  update pre new_min new_max finish lower_safe check_progress remember acceptable add_entry dominated new_fixed_mu reduced_mu
  tau_monotone upd_limits upd_bounds initialize min_ref_val forallb existsb filter app fst snd Nat.eqb Nat.leb length
  negb orb andb fold_left set_mumin set_mumax set_init set_refs set_chk set_nob set_filter set_free set_acc set_mu set_tau set_cur
  s_mumin s_mumax s_idi s_ipi s_refs s_chk s_nob s_filter s_free s_acc s_mu s_tau s_cur
  o_mumaxfact o_mumax o_taumin o_safe o_redfact o_rediters o_glob o_maxmargin o_marginfact o_restore o_initfact o_btol
  o_lin o_pow o_mumin o_mumin_user o_resto o_mutarget o_hasfix
  q_avrg q_dinf q_pinf q_kkt q_nlp q_f q_theta q_nbounds q_berr
  c_pt c_tol c_ctol c_tiny c_skip c_free c_fix ex_q ex_o ex_c ex_k ex_pw ex_s1 ex_s2 ex_s3 ex_s4].
Ltac open_update := unfold update; rewrite pre_eq; [|intros ?; discriminate|reflexivity]; red_update; pose proof ex_big; set (big := / 10 * 10 ^ 20) in *; clearbody big.
Ltac ifs := repeat (match goal with
  | |- context [if ?b then _ else _] => match b with
      | Rle_dec ?x ?y => destruct (Rle_dec x y); [|exfalso; lra]
      | Rle_dec ?x ?y => destruct (Rle_dec x y); [exfalso; lra|]
      | Rlt_dec ?x ?y => destruct (Rlt_dec x y); [|exfalso; lra]
      | Rlt_dec ?x ?y => destruct (Rlt_dec x y); [exfalso; lra|]
      | Rgt_dec ?x ?y => destruct (Rgt_dec x y); [|exfalso; lra]
      | Rgt_dec ?x ?y => destruct (Rgt_dec x y); [exfalso; lra|]
      | Req_EM_T ?x ?y => destruct (Req_EM_T x y); [|exfalso; lra]
      | Req_EM_T ?x ?y => destruct (Req_EM_T x y); [exfalso; lra|] end
  | |- context [Rmin ?x ?y] => (rewrite (Rmin_left x y) by lra) || (rewrite (Rmin_right x y) by lra)
  | |- context [Rmax ?x ?y] => (rewrite (Rmax_left x y) by lra) || (rewrite (Rmax_right x y) by lra)
  end; red_update).
Ltac solve_st := do 3 (try reflexivity; try lra; f_equal).
Lemma ex_1 : update ex_pw ex_q (ex_o FILTER_OBJ_CONSTR 4 false 0) ex_c (initialize (ex_o FILTER_OBJ_CONSTR 4 false 0) tt)
  = Ret true ex_s1 [EReset unit].
Proof.
  open_update. ifs. unfold ex_s1. solve_st.
Qed.
Lemma ex_2 : update ex_pw ex_q (ex_o FILTER_OBJ_CONSTR 4 false 0) ex_c ex_s1
  = Ret true ex_s2 [EReset unit; EInfoF unit; ERigorous unit].
Proof.
  open_update. ifs. unfold ex_s2. solve_st.
Qed.
Lemma ex_3 : update ex_pw ex_q (ex_o FILTER_OBJ_CONSTR 4 false 0) ex_c ex_s2
  = Ret true ex_s3 [EReset unit; EInfoF unit; ERigorous unit].
Proof.
  open_update. ifs. unfold ex_s3. solve_st.
Qed.
Lemma ex_4 : update ex_pw ex_q (ex_o FILTER_OBJ_CONSTR 4 false 0) ex_c ex_s3
  = Ret true ex_s4 [EReset unit; EInfoF unit; ERigorous unit].
Proof.
  open_update. ifs. unfold ex_s4. solve_st.
Qed.
Definition ex_o1 : opts := ex_o FILTER_OBJ_CONSTR 4 false 0.
Definition ex_l : list (step unit) :=
  [Step ex_c (initialize ex_o1 tt) true ex_s1 [EReset unit];
   Step ex_c ex_s1 true ex_s2 [EReset unit; EInfoF unit; ERigorous unit];
   Step ex_c ex_s2 true ex_s3 [EReset unit; EInfoF unit; ERigorous unit];
   Step ex_c ex_s3 true ex_s4 [EReset unit; EInfoF unit; ERigorous unit]].
Lemma ex_h3 : hist ex_pw ex_q ex_o1 tt (firstn 3 ex_l) ex_s3.
Proof.
  exact (hist_step _ (hist_step _ (hist_step _ (hist_nil ex_pw ex_q ex_o1 tt) ex_1) ex_2) ex_3).
Qed.
Lemma ex_h4 : hist ex_pw ex_q ex_o1 tt ex_l ex_s4.
Proof. exact (hist_step _ ex_h3 ex_4). Qed.
Lemma ex_good g n rest safe : 0 <= safe -> good_opts ex_pw (ex_o g n rest safe).
Proof. intros Sf. split; cbn; try lra; try discriminate; try exact Sf; try (intros m M; unfold ex_pw; exact M). Qed.
Lemma ex_bounded : bounded ex_q. Proof. intros x. discriminate. Qed.

(** The hypotheses of C78 and C79 are met by a history of four calls that uses both modes. *)
Example C78_nonvacuous :
  bounded ex_q /\ good_opts ex_pw ex_o1 /\ Forall (fun t => good_call (t_call t)) ex_l /\
  (forall t0, hd_error ex_l = Some t0 -> 0 < q_avrg ex_q (c_pt (t_call t0))) /\ (forall x, 0 <= q_nlp ex_q x) /\
  hist ex_pw ex_q ex_o1 tt ex_l ex_s4 /\ max_mu ex_q ex_o1 (map (@t_call unit) ex_l) 1000 /\
  map (fun t => s_mu (t_after t)) ex_l = [/ 2; 8 / 10; 16 / 100; 32 / 1000] /\
  accepted ex_l = [tt].
Proof.
  split; [exact ex_bounded|]. split; [apply ex_good; lra|].
  split; [repeat constructor; cbn; lra|]. split; [intros t0 E; injection E as <-; cbn; lra|].
  split; [intros x; cbn; lra|]. split; [exact ex_h4|]. split; [cbn; lra|]. split; reflexivity.
Qed.

(** C78 refuted: the barrier parameter does go below the mu_min the user set, by a reduction in
    fixed mode. (The bound that holds is [C78_mu_bounded].) *)
Theorem C78_user_mu_min_refuted :
  ~ (forall pt pw (q : cq pt) (o : opts) p l s, bounded q -> good_opts pw o ->
       Forall (fun t => good_call (t_call t)) l -> (forall x, 0 < q_avrg q x) ->
       o_mumin_user o = true -> hist pw q o p l s -> l <> [] -> o_mumin o <= s_mu s).
Proof.
  intros H.
  pose proof (H unit ex_pw ex_q ex_o1 tt ex_l ex_s4 ex_bounded ltac:(apply ex_good; lra)
    ltac:(repeat constructor; cbn; lra) ltac:(intros; cbn; lra) eq_refl ex_h4 ltac:(discriminate)) as Q.
  cbn in Q. lra.
Qed.

(** C78 refuted: after a reduction in fixed mode tau is not the larger of tau_min and 1 - mu,
    as it is after a switch to fixed mode and in the monotone strategy: the old mu is used. *)
Theorem C78_fixed_mode_tau_refuted :
  ~ (forall pt pw (q : cq pt) (o : opts) p l s, bounded q -> good_opts pw o ->
       Forall (fun t => good_call (t_call t)) l -> (forall x, 0 < q_avrg q x) ->
       hist pw q o p l s -> l <> [] -> s_free s = false -> s_tau s = Rmax (o_taumin o) (1 - s_mu s)).
Proof.
  intros H.
  pose proof (H unit ex_pw ex_q ex_o1 tt (firstn 3 ex_l) ex_s3 ex_bounded ltac:(apply ex_good; lra)
    ltac:(repeat constructor; cbn; lra) ltac:(intros; cbn; lra) ex_h3 ltac:(discriminate) eq_refl) as Q.
  cbn in Q. rewrite Rmax_right in Q by lra. lra.
Qed.

(** C79 refuted: adaptive_mu_kkterror_red_iters = 0, which the registry allows. The very first
    call follows a null pointer (adaptive_mu_restore_previous_iterate) or reads the first
    element of an empty list (adaptive_mu_safeguard_factor > 0). *)
Theorem C79_zero_red_iters_refuted : forall rest safe,
  rest = true \/ safe <> 0 ->
  update ex_pw ex_q (ex_o KKT_ERROR 0 rest safe) ex_c (initialize (ex_o KKT_ERROR 0 rest safe) tt) = Undef unit.
Proof.
  intros rest safe H. unfold update, upd_bounds, upd_limits, check_progress, initialize. cbn.
  destruct (Rlt_dec (-1) 0); [|lra]. cbn.
  destruct rest; [reflexivity|]. destruct H as [H|H]; [discriminate|].
  unfold new_fixed_mu, lower_safe. cbn. destruct (Req_EM_T safe 0); [contradiction|]. reflexivity.
Qed.

(** A kkt-error history: one reference, reduction by one half; the second point is rejected. *)
Example C79_nonvacuous : exists l s,
  hist ex_pw (ex_k 100) (ex_o KKT_ERROR 1 false 0) 8 l s /\ accepted l = [8; 2; 1 / 2] /\
  map (fun t => c_pt (t_call t)) l = [8; 2; 3 / 2; 1 / 2] /\ map (fun t => s_free (t_after t)) l = [true; true; false; true].
Proof.
  set (cc := fun x : R => @Call R x (/ 1000) (/ 1000) false false (fun _ _ => Some (/ 2)) (fun _ _ => @None R)).
  assert (H1 : update ex_pw (ex_k 100) (ex_o KKT_ERROR 1 false 0) (cc 8) (initialize (ex_o KKT_ERROR 1 false 0) 8) =
     Ret true (St (/ 10) 1000 (-1) (-1) [8] true false [] true None (/ 2) (/ 10) 8) [EReset R]).
  { open_update. unfold cc. ifs. solve_st. }
  pose proof (hist_step _ (hist_nil ex_pw (ex_k 100) (ex_o KKT_ERROR 1 false 0) 8) H1) as T1. clear H1.
  match type of T1 with hist _ _ _ _ _ ?s0 => assert (H2 : update ex_pw (ex_k 100) (ex_o KKT_ERROR 1 false 0) (cc 2) s0 =
     Ret true (St (/ 10) 1000 (-1) (-1) [2] true false [] true None (/ 2) (/ 10) 2) [EReset R]) end.
  { open_update. unfold cc. ifs. solve_st. }
  pose proof (hist_step _ T1 H2) as T2. clear T1 H2.
  match type of T2 with hist _ _ _ _ _ ?s0 => assert (H3 : update ex_pw (ex_k 100) (ex_o KKT_ERROR 1 false 0) (cc (3 / 2)) s0 =
     Ret true (St (/ 10) 1000 (-1) (-1) [2] true false [] false None (8 / 10) (2 / 10) (3 / 2)) [EReset R; EInfoF R; ERigorous R]) end.
  { open_update. unfold cc. ifs. solve_st. }
  pose proof (hist_step _ T2 H3) as T3. clear T2 H3.
  match type of T3 with hist _ _ _ _ _ ?s0 => assert (H4 : update ex_pw (ex_k 100) (ex_o KKT_ERROR 1 false 0) (cc (1 / 2)) s0 =
     Ret true (St (/ 10) 1000 (-1) (-1) [1 / 2] true false [] true None (/ 2) (/ 10) (1 / 2)) [EReset R]) end.
  { open_update. unfold cc. ifs. solve_st. }
  pose proof (hist_step _ T3 H4) as T4.
  eexists _, _. split; [exact T4|]. repeat split.
Qed.

Example C79_kkt_error_nonvacuous : exists d pr c,
  (forall v, In v [d; pr; c] -> 0 <= n_1 v /\ 0 <= n_2 v /\ 0 <= n_max v) /\
  (forall v, In v [d; pr; c] -> (n_1 v = 0 <-> n_2 v = 0) /\ (n_1 v = 0 <-> n_max v = 0)) /\
  kkt_error NM_1 CEN_NONE false 2 1 1 d pr c 1 = 3.
Proof.
  exists (Norms 2 2 2), (Norms 0 0 0), (Norms 2 2 2). split; [|split].
  - intros v [<-|[<-|[<-|[]]]]; cbn; lra.
  - intros v [<-|[<-|[<-|[]]]]; cbn; lra.
  - unfold kkt_error, scaled. cbn [Nat.eqb n_1 INR]. field.
Qed.

Print Assumptions C78_mu_range.
Print Assumptions C78_fixed_mode.
Print Assumptions C78_mu_positive.
Print Assumptions C78_mu_bounded.
Print Assumptions C78_tau_range.
Print Assumptions C78_no_bounds.
Print Assumptions C78_user_mu_min_refuted.
Print Assumptions C78_fixed_mode_tau_refuted.
Print Assumptions C79_mode_iff.
Print Assumptions C79_kkt_reduction.
Print Assumptions C79_kkt_geometric.
Print Assumptions C79_kkt_to_zero.
Print Assumptions C79_filter_progress.
Print Assumptions C79_never_monotone.
Print Assumptions C79_reset_on_change.
Print Assumptions C79_iterate.
Print Assumptions C79_defined.
Print Assumptions C79_tiny_step.
Print Assumptions C79_kkt_error_measures.
Print Assumptions C79_zero_red_iters_refuted.
