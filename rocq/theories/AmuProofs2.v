(** Proofs about the adaptive barrier update, continued: ranges, progress, definedness. *)
From Coq Require Import Reals List Bool Arith Lra Lia.
From Verif Require Import AmuModel AmuSpec AmuProofs.
Import ListNotations.
Open Scope R_scope.
Set Implicit Arguments.

Lemma Rmin_l' a b : Rmin a b <= a. Proof. apply Rmin_l. Qed.
Lemma clip a lo up : Rmin (Rmax a lo) up <= up /\ Rmin lo up <= Rmin (Rmax a lo) up.
Proof.
  split; [apply Rmin_r|]. apply Rmin_glb; [|apply Rmin_r].
  eapply Rle_trans; [apply Rmin_l|]. apply Rmax_r.
Qed.
Lemma clip2 a lo l up : Rmin (Rmax (Rmax a lo) l) up <= up /\ Rmin lo up <= Rmin (Rmax (Rmax a lo) l) up.
Proof.
  split; [apply Rmin_r|]. apply Rmin_glb; [|apply Rmin_r].
  eapply Rle_trans; [apply Rmin_l|]. eapply Rle_trans; [apply Rmax_r|]. apply Rmax_l.
Qed.

Section Proofs.
Variable pt : Type.
Variable pw : R -> R -> R.
Variable q : cq pt.
Variable o : opts.

(** What a step does to mu and tau. *)
Definition mu_step (c : call pt) (s : st pt) (b : bool) (s' : st pt) : Prop :=
  (* free: the oracle failed *)
  (s_free s' = true /\ b = false /\ s_mu s' = s_mu s /\ s_tau s' = Rmax (o_taumin o) (1 - q_nlp q (c_pt c))) \/
  (* free *)
  (s_free s' = true /\ b = true /\ s_mu s' <= s_mumax s' /\ Rmin (s_mumin s') (s_mumax s') <= s_mu s' /\
     s_tau s' = Rmax (o_taumin o) (1 - q_nlp q (c_pt c))) \/
  (* switch to fixed *)
  (s_free s = true /\ s_free s' = false /\ b = true /\ s_mu s' <= s_mumax s' /\ Rmin (s_mumin s') (s_mumax s') <= s_mu s' /\
     s_tau s' = Rmax (o_taumin o) (1 - s_mu s')) \/
  (* fixed, unchanged *)
  (s_free s = false /\ s_free s' = false /\ b = true /\ c_tiny c = false /\ o_btol o * s_mu s < q_berr q (c_pt c) (s_mu s) /\
     s_mu s' = s_mu s /\ s_tau s' = s_tau s) \/
  (* fixed, reduced *)
  (s_free s = false /\ s_free s' = false /\ b = true /\ (c_tiny c = true \/ q_berr q (c_pt c) (s_mu s) <= o_btol o * s_mu s) /\
     s_mu s' = Rmax (Rmin (o_lin o * s_mu s) (pw (s_mu s) (o_pow o))) (floor_mu o c) /\
     s_tau s' = Rmax (o_taumin o) (1 - s_mu s)).

Lemma step_mu c s b s' ev : bounded q -> s_nob s = false -> update pw q o c s = Ret b s' ev ->
  mu_step c s b s'.
Proof.
  intros B N H. pose proof (@update_cases pt pw q o c s _ _ _ B N H) as U. unfold mu_step.
  destruct U as [s1 K1 K2 K3 M F1 E|F K T L Eb Es|F K L Eb Es R|s2 s3 m F K A M Eb Es R].
  - destruct (@remember_spec pt q o _ _ M) as (r & G & E1 & _). cbn in E1.
    destruct E as [(_ & -> & -> & _)|(m & s2 & l & _ & L & -> & -> & _)].
    + left. subst s1. cbn. auto.
    + right; left. destruct (@lower_safe_spec pt q o _ _ _ L) as (i & j & ->). subst s1. cbn.
      destruct (clip2 m (new_min o c (s_mumin s)) l (new_max q o c (s_mumax s))) as (P1 & P2). auto.
  - right; right; right; left. subst s'. cbn in *. repeat split; auto. lra.
  - right; right; right; right. subst s'. cbn in *. repeat split; auto. tauto.
  - right; right; left. destruct (@new_fixed_spec pt q o _ _ _ _ M) as (i & j & m1 & -> & Em). subst s'.
    assert (X : s_mumin s2 = new_min o c (s_mumin s) /\ s_mumax s2 = new_max q o c (s_mumax s) /\ s_free s2 = false).
    { destruct A as [(_ & ->)|(_ & p & _ & -> & _)]; cbn; auto. }
    destruct X as (X1 & X2 & X3). cbn. cbn in F. rewrite X3, X1, X2.
    destruct (clip m1 (s_mumin s2) (s_mumax s2)) as (P1 & P2). rewrite <- Em, X1, X2 in P2. rewrite <- Em, X2 in P1. repeat split; auto.
Qed.

Lemma hist_snoc_inv p l t s : hist pw q o p (l ++ [t]) s ->
  exists s0, hist pw q o p l s0 /\ t_before t = s0 /\ t_after t = s /\
    update pw q o (t_call t) s0 = Ret (t_ret t) s (t_ev t).
Proof.
  intros H. inversion H as [|l' s0 c b s' ev H1 H2 E1].
  - destruct l; discriminate.
  - apply app_inj_tail in E1. destruct E1 as [-> <-]. exists s0. cbn. auto.
Qed.

Lemma hist_state_ends p l s : hist pw q o p l s -> s = last (map t_after l) (initialize o p).
Proof.
  intros H. destruct H as [|l s c b s' ev H E]; [reflexivity|].
  rewrite map_app. cbn. rewrite last_last. reflexivity.
Qed.

(** * Progress *)
Lemma check_progress_iff l s x : inv q o l s -> s_cur s = x ->
  (check_progress q o s = true <-> progress q o (accepted l) x).
Proof.
  intros [_ _ _ K F1 F2 _ _] <-. unfold check_progress, progress.
  destruct (o_glob o) eqn:G.
  - specialize (K eq_refl). rewrite K. clear K. unfold kkt_progress.
    assert (LL : length (lastn (o_rediters o) (map (q_kkt q) (accepted l))) = (length (accepted l) - (length (accepted l) - o_rediters o))%nat).
    { unfold lastn. rewrite skipn_length, map_length. reflexivity. }
    rewrite LL.
    destruct (Nat.leb_spec (o_rediters o) (length (accepted l) - (length (accepted l) - o_rediters o))) as [E|E].
    + rewrite existsb_exists. split.
      * intros (e & He & Q). right. destruct (Rle_dec _ _) as [L|]; [|discriminate].
        apply in_lastn in He. destruct He as (j & Hj & Lj). rewrite map_length in Lj.
        rewrite nth_error_map in Hj. destruct (nth_error (accepted l) j) as [y|] eqn:Y; [|discriminate].
        injection Hj as <-. exists j, y. auto.
      * intros [Q|(j & y & Y & Lj & Q)]; [lia|].
        exists (q_kkt q y). split.
        -- apply in_lastn. exists j. rewrite nth_error_map, Y, map_length. auto.
        -- destruct (Rle_dec _ _); [reflexivity|contradiction].
    + split; [|reflexivity]. intros _. left. lia.
  - unfold acceptable, filter_progress. rewrite forallb_forall. specialize (F1 eq_refl). specialize (F2 eq_refl).
    fold (margin q o (s_cur s)). split.
    + intros H y Hy. destruct (F1 y Hy) as (e & He & L1 & L2). specialize (H e He).
      destruct (Rle_dec _ (fst e)); [left; lra|]. destruct (Rle_dec _ (snd e)); [right; lra|discriminate].
    + intros H e He. destruct (F2 e He) as (y & Hy & ->). cbn [fst snd].
      destruct (H y Hy) as [L|L].
      * destruct (Rle_dec _ (q_f q y)); [reflexivity|contradiction].
      * destruct (Rle_dec _ (q_f q y)); [reflexivity|]. destruct (Rle_dec _ (q_theta q y)); [reflexivity|contradiction].
  - tauto.
Qed.

Lemma inv_pre l s c : inv q o l s -> check_progress q o (pre q o c s) = true <-> progress q o (accepted l) (c_pt c).
Proof.
  intros I. rewrite <- (@check_progress_iff l (set_cur s (c_pt c)) (c_pt c)).
  - unfold check_progress, pre. cbn. tauto.
  - destruct I as [A B C D E F G H]. split; cbn; assumption.
  - reflexivity.
Qed.

(** When the mode is free after a call. *)
Lemma step_mode l s c b s' ev : bounded q -> inv q o l s -> update pw q o c s = Ret b s' ev ->
  (s_free s' = true <->
     progress q o (accepted l) (c_pt c) /\
     (o_glob o <> NEVER_MONOTONE_MODE -> c_tiny c = false /\ (s_free s = true -> c_skip c = false))).
Proof.
  intros B I H. pose proof (@update_cases pt pw q o c s _ _ _ B (i_nob I) H) as U.
  pose proof (inv_pre c I) as P.
  destruct U as [s1 K1 K2 K3 M F1 E|F K T L Eb Es|F K L Eb Es R|s2 s3 m F K A M Eb Es R].
  - split; [|intros _].
    + intros _. split; [tauto|]. intros G. cbn [pre s_free] in *.
      destruct (s_free s); [destruct (K2 eq_refl G) | specialize (K3 eq_refl)]; split; auto. discriminate.
    + destruct E as [(_ & -> & -> & _)|(m & s2 & l0 & _ & L & -> & -> & _)]; [exact F1|].
      destruct (@lower_safe_spec pt q o _ _ _ L) as (i & j & ->). exact F1.
  - subst s'. rewrite F. split; [discriminate|]. intros (Q & _). apply P in Q. congruence.
  - subst s'. cbn [set_tau set_mu s_free]. rewrite F. split; [discriminate|]. intros (Q & Q2). apply P in Q.
    destruct K as [K|K]; [congruence|].
    cbn [pre s_free] in F.
    destruct (o_glob o) eqn:G.
    + destruct Q2; congruence.
    + destruct Q2; congruence.
    + rewrite (i_never I) in F by exact G. discriminate.
  - destruct (@new_fixed_spec pt q o _ _ _ _ M) as (i & j & m1 & -> & _). subst s'.
    assert (X : s_free s2 = false) by (destruct A as [(_ & ->)|(_ & p & _ & -> & _)]; reflexivity).
    cbn [set_tau set_mu set_init s_free]. rewrite X. split; [discriminate|]. intros (Q & Q2). apply P in Q.
    cbn [pre s_free] in F.
    destruct K as [K|(K1 & [K2|K2])]; [congruence| |].
    + destruct (Q2 K1) as (_ & Q3). rewrite (Q3 F) in K2. discriminate.
    + destruct (Q2 K1); congruence.
Qed.

(** Chains: every accepted point made progress over those before it. *)
Lemma accepted_progress p l s : bounded q -> hist pw q o p l s ->
  forall i x, nth_error (accepted l) i = Some x -> progress q o (firstn i (accepted l)) x.
Proof.
  intros B H. induction H as [|l s c b s' ev H IH E]; intros i x Hx.
  - destruct i; discriminate.
  - rewrite accepted_snoc in *. cbn [t_after t_call] in *.
    destruct (s_free s') eqn:F; [|rewrite app_nil_r in *; apply IH; exact Hx].
    destruct (Nat.lt_ge_cases i (length (accepted l))) as [L|L].
    + rewrite nth_error_app1 in Hx by exact L. rewrite firstn_app.
      replace (i - length (accepted l))%nat with 0%nat by lia. cbn [firstn]. rewrite app_nil_r. apply IH; exact Hx.
    + rewrite nth_error_app2 in Hx by exact L.
      destruct (i - length (accepted l))%nat as [|k] eqn:D; [|destruct k; discriminate].
      injection Hx as <-. replace i with (length (accepted l)) by lia.
      rewrite firstn_app, Nat.sub_diag, firstn_all. cbn [firstn]. rewrite app_nil_r.
      apply (step_mode c B (hist_inv B H) E). exact F.
Qed.

(** * Definedness *)
Lemma lower_safe_defined s : (o_glob o = KKT_ERROR -> s_refs s <> []) -> exists s1 l, lower_safe q o s = Some (s1, l).
Proof.
  intros H. unfold lower_safe. destruct (Req_EM_T (o_safe o) 0); [eauto|].
  destruct (o_glob o); eauto.
  cbn [s_refs set_init]. destruct (s_refs s); [destruct (H eq_refl); reflexivity|]. cbn. eauto.
Qed.

Lemma finish_defined c s ev : (o_glob o = KKT_ERROR -> s_refs s <> []) -> exists b s' e, finish q o c s ev = Ret b s' e.
Proof.
  intros H. unfold finish. destruct (s_free s); [|eauto].
  destruct (c_free c _ _) as [m|]; [|eauto].
  destruct (@lower_safe_defined (set_tau s (Rmax (o_taumin o) (1 - q_nlp q (s_cur s)))) H) as (s1 & l & ->).
  destruct (Rlt_dec (Rmax m (s_mumin (set_tau s (Rmax (o_taumin o) (1 - q_nlp q (s_cur s)))))) l); eauto.
Qed.

Lemma remember_defined s : (1 <= o_rediters o)%nat -> exists s1, remember q o s = Some s1 /\
  (o_glob o = KKT_ERROR -> s_refs s1 <> []).
Proof.
  intros N. unfold remember. destruct (o_glob o).
  - destruct (Nat.leb_spec (o_rediters o) (length (s_refs s))) as [E|E].
    + destruct (s_refs s); [cbn in E; lia|]. eexists. split; [reflexivity|]. intros _.
      destruct (o_restore o); cbn; intros Z; apply app_eq_nil in Z; destruct Z; discriminate.
    + eexists. split; [reflexivity|]. intros _.
      destruct (o_restore o); cbn; intros Z; apply app_eq_nil in Z; destruct Z; discriminate.
  - eexists. split; [reflexivity|discriminate].
  - eexists. split; [reflexivity|discriminate].
Qed.

Lemma update_defined c s : bounded q -> s_nob s = false -> (1 <= o_rediters o)%nat ->
  (check_progress q o (pre q o c s) = true /\ c_tiny c = false /\ c_skip c = false /\ s_free s = true \/
   (o_glob o = KKT_ERROR -> s_refs s <> []) /\ (o_restore o = true -> s_acc s <> None)) ->
  update pw q o c s <> Undef pt.
Proof.
  intros B N R1 H. unfold update. rewrite (pre_eq o c s B N).
  change (s_nob (pre q o c s)) with false. cbv iota.
  destruct H as [(K & T & Sk & F)|(Rf & Ac)].
  - cbv zeta. rewrite K, T, Sk. change (s_free (pre q o c s)) with (s_free s). rewrite F. cbn [negb orb].
    destruct (@remember_defined (pre q o c s) R1) as (s1 & M & Q). rewrite M.
    destruct (@finish_defined c s1 [] Q) as (b & s' & e & FD).
    destruct (o_glob o); rewrite FD; discriminate.
  - change (s_refs s) with (s_refs (pre q o c s)) in Rf. change (s_acc s) with (s_acc (pre q o c s)) in Ac.
    set (p := pre q o c s) in *. clearbody p. clear B N.
    assert (FD : forall s1 ev, (o_glob o = KKT_ERROR -> s_refs s1 <> []) -> finish q o c s1 ev <> Undef pt).
    { intros s1 ev Q. destruct (@finish_defined c s1 ev Q) as (b & s' & e & ->). discriminate. }
    assert (NF : forall s1, (o_glob o = KKT_ERROR -> s_refs s1 <> []) -> exists s3 m, new_fixed_mu q o c s1 = Some (s3, m) /\ (o_glob o = KKT_ERROR -> s_refs s3 <> [])).
    { intros s1 Q. unfold new_fixed_mu. destruct (@lower_safe_defined s1 Q) as (s2 & l & E). rewrite E.
      destruct (@lower_safe_spec pt q o _ _ _ E) as (i & j & ->). eexists _, _. split; [reflexivity|]. exact Q. }
    cbv zeta. destruct (s_free p); cbn [negb].
    + destruct (match o_glob o with NEVER_MONOTONE_MODE => check_progress q o p
              | _ => if c_skip c || c_tiny c then false else check_progress q o p end).
      * destruct (@remember_defined p R1) as (s1 & M & Q). rewrite M. apply FD. exact Q.
      * cbn [s_acc set_free]. destruct (o_restore o).
        -- destruct (s_acc p) as [x|]; [|destruct (Ac eq_refl); reflexivity].
           destruct (NF (set_cur (set_free p false) x) Rf) as (s3 & m & E & Q). rewrite E.
           destruct (c_tiny c && _); [discriminate|]. apply FD. exact Q.
        -- destruct (NF (set_free p false) Rf) as (s3 & m & E & Q). rewrite E.
           destruct (c_tiny c && _); [discriminate|]. apply FD. exact Q.
    + destruct (check_progress q o p && negb (c_tiny c)).
      * destruct (@remember_defined (set_free p true) R1) as (s1 & M & Q). rewrite M. apply FD. exact Q.
      * destruct (_ || _).
        -- destruct (c_tiny c && _); [discriminate|]. apply FD. exact Rf.
        -- apply FD. exact Rf.
Qed.

End Proofs.

(** * The reduction of accepted errors is geometric *)
Lemma geometric (e : list R) (n : nat) (r M : R) : (1 <= n)%nat -> 0 < r < 1 -> 0 <= M ->
  (forall i x, nth_error e i = Some x -> (i < n)%nat -> x <= M) ->
  (forall i x, nth_error e i = Some x -> (n <= i)%nat ->
     exists j y, (i - n <= j < i)%nat /\ nth_error e j = Some y /\ x <= r * y) ->
  forall i x, nth_error e i = Some x -> x <= r ^ (i / n) * M.
Proof.
  intros N Rr M0 H0 H1 i. induction i as [i IH] using lt_wf_ind. intros x Hx.
  destruct (Nat.lt_ge_cases i n) as [L|L].
  - rewrite Nat.div_small by exact L. cbn [pow]. rewrite Rmult_1_l. exact (H0 _ _ Hx L).
  - destruct (H1 _ _ Hx L) as (j & y & Lj & Hy & Q).
    pose proof (IH j ltac:(lia) y Hy) as P.
    assert (D : (i / n <= S (j / n))%nat).
    { replace (S (j / n)) with ((j + 1 * n) / n)%nat by (rewrite Nat.div_add by lia; lia).
      apply Nat.div_le_mono; lia. }
    eapply Rle_trans; [exact Q|].
    apply Rle_trans with (r * (r ^ (j / n) * M)).
    { apply Rmult_le_compat_l; [lra|exact P]. }
    rewrite <- Rmult_assoc. change (r * r ^ (j / n)) with (r ^ S (j / n)).
    apply Rmult_le_compat_r; [exact M0|].
    replace (S (j / n)) with (i / n + (S (j / n) - i / n))%nat by lia.
    rewrite pow_add. rewrite <- (Rmult_1_r (r ^ (i / n))) at 2.
    apply Rmult_le_compat_l; [apply pow_le; lra|].
    rewrite <- (pow1 (S (j / n) - i / n)). apply pow_incr. lra.
Qed.

Lemma pow_small (r M eps : R) (n : nat) : (1 <= n)%nat -> 0 < r < 1 -> 0 <= M -> 0 < eps ->
  exists k, forall i, (k <= i)%nat -> r ^ (i / n) * M < eps.
Proof.
  intros N Rr M0 E.
  destruct (pow_lt_1_zero r ltac:(rewrite Rabs_right; lra) (eps / (M + 1)) ltac:(apply Rdiv_lt_0_compat; lra)) as (k & K).
  exists (k * n)%nat. intros i L.
  assert (D : (k <= i / n)%nat) by (apply Nat.div_le_lower_bound; lia).
  specialize (K _ D). pose proof (pow_lt r (i / n)%nat ltac:(lra)) as P.
  rewrite Rabs_right in K by lra.
  apply Rle_lt_trans with (r ^ (i / n) * (M + 1)); [apply Rmult_le_compat_l; lra|].
  apply Rmult_lt_reg_r with (/ (M + 1)); [apply Rinv_0_lt_compat; lra|].
  rewrite Rmult_assoc, Rinv_r, Rmult_1_r by lra. exact K.
Qed.
