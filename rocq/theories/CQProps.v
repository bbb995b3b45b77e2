(** C57-C61: the quantities calculated from the iterates (IpIpoptCalculatedQuantities.cpp). *)
From Coq Require Import Reals List Arith Bool Lra Lia ZArith.
From Verif Require Import CQModel CQSpec CQVec CQProofs CQFuns CQSlack.
Import ListNotations.
Open Scope R_scope.
Local Notation "v .[ i ]" := (nth i v 0) (at level 1, format "v .[ i ]").

Lemma has_hv s t n : has s t n -> hv s t (val s t) /\ length (val s t) = n.
Proof. intros [H1 H2]. split; [split; [exact H1|reflexivity]|exact H2]. Qed.

(** * C57: function values, derivatives and infeasibilities are those of the present iterates, in every history *)
Theorem C57_function_values P o safe fixmu B0 mu0 s : nlp_ok P -> opts_ok o -> reach P o safe fixmu B0 mu0 s -> forall w,
  ansN (cq_f P w) s = obj P (mu s) (e_x (E s w)) /\
  ansN (cq_unscaled_f P w) s = obj P (mu s) (e_x (E s w)) / so P /\
  ansV (cq_grad_f P w) s = gobj P (mu s) (e_x (E s w)) /\
  ansV (cq_c P w) s = fn_c P (e_x (E s w)) /\
  ansV (cq_d P w) s = fn_d P (e_x (E s w)) /\
  vec_is (ansV (cq_unscaled_c P w) s) (n_c P) (fun i => (fn_c P (e_x (E s w))).[i] / sc P i) /\
  vec_is (ansV (cq_unscaled_d P) s) (n_s P) (fun i => (fn_d P (e_x (E s false))).[i] / sd P i) /\
  vec_is (ansV (cq_d_minus_s P w) s) (n_s P) (fun i => (fn_d P (e_x (E s w))).[i] - (e_s (E s w)).[i]).
Proof.
  intros HP Ho HR w. pose proof (reach_inv _ _ _ _ _ _ HP Ho _ HR) as HI.
  split; [apply (use_N _ _ _ _ _ _ _ _ _ (ok_f _ _ _ _ _ _ s _ w HI eq_refl))|].
  split; [apply (use_N _ _ _ _ _ _ _ _ _ (ok_unf _ _ _ _ _ _ s _ w HI eq_refl))|].
  split; [apply (use_V _ _ _ _ _ _ _ _ _ (ok_gradf _ _ _ _ _ _ s _ w HI eq_refl))|].
  split; [apply (use_V _ _ _ _ _ _ _ _ _ (ok_c _ _ _ _ _ _ s _ w HI eq_refl))|].
  split; [apply (use_V _ _ _ _ _ _ _ _ _ (ok_d _ _ _ _ _ _ s _ w HI eq_refl))|].
  split; [apply (use_V _ _ _ _ _ _ _ _ _ (ok_unc _ _ _ _ _ _ HP s _ w HI eq_refl))|].
  split; [apply (use_V _ _ _ _ _ _ _ _ _ (ok_und _ _ _ _ _ _ HP s _ HI eq_refl))|].
  apply (use_V _ _ _ _ _ _ _ _ _ (ok_dms _ _ _ _ _ _ HP s _ w HI eq_refl)).
Qed.
Theorem C57_derivatives P o safe fixmu B0 mu0 s : nlp_ok P -> opts_ok o -> reach P o safe fixmu B0 mu0 s -> forall w,
  ansN (cq_jac_c P w) s = fn_Jc P (e_x (E s w)) /\ ansN (cq_jac_d P w) s = fn_Jd P (e_x (E s w)) /\
  ansN (cq_hessian P) s = hess P (mu s) (e_x (E s false)) (e_yc (E s false)) (e_yd (E s false)) /\
  (forall t, has s t (n_x P) ->
     vec_is (ansV (cq_jac_c_times P t) s) (n_c P) (Jv (fn_Jc P (e_x (E s false))) (val s t)) /\
     vec_is (ansV (cq_jac_d_times P t) s) (n_s P) (Jv (fn_Jd P (e_x (E s false))) (val s t))) /\
  (forall t, has s t (n_c P) -> vec_is (ansV (cq_jac_cT_times P w t) s) (n_x P) (JTv (fn_Jc P (e_x (E s w))) (val s t))) /\
  (forall t, has s t (n_s P) -> vec_is (ansV (cq_jac_dT_times P w t) s) (n_x P) (JTv (fn_Jd P (e_x (E s w))) (val s t))) /\
  vec_is (ansV (cq_jac_cT_times_y P w) s) (n_x P) (JTv (fn_Jc P (e_x (E s w))) (e_yc (E s w))) /\
  vec_is (ansV (cq_jac_dT_times_y P w) s) (n_x P) (JTv (fn_Jd P (e_x (E s w))) (e_yd (E s w))).
Proof.
  intros HP Ho HR w. pose proof (reach_inv _ _ _ _ _ _ HP Ho _ HR) as HI.
  split; [apply (use_N _ _ _ _ _ _ _ _ _ (ok_jc _ _ _ _ _ _ s _ w HI eq_refl))|].
  split; [apply (use_N _ _ _ _ _ _ _ _ _ (ok_jd _ _ _ _ _ _ s _ w HI eq_refl))|].
  split; [apply (use_N _ _ _ _ _ _ _ _ _ (ok_h _ _ _ _ _ _ s _ HI eq_refl))|].
  split.
  { intros t Ht. destruct (has_hv _ _ _ Ht) as [H1 H2]. split.
    - apply (use_V _ _ _ _ _ _ _ _ _ (ok_jcv _ _ _ _ _ _ HP s _ t _ HI eq_refl H1 H2)).
    - apply (use_V _ _ _ _ _ _ _ _ _ (ok_jdv _ _ _ _ _ _ HP s _ t _ HI eq_refl H1 H2)). }
  split; [intros t Ht; destruct (has_hv _ _ _ Ht) as [H1 H2]; apply (use_V _ _ _ _ _ _ _ _ _ (ok_jcT _ _ _ _ _ _ HP s _ w t _ HI eq_refl H1 H2))|].
  split; [intros t Ht; destruct (has_hv _ _ _ Ht) as [H1 H2]; apply (use_V _ _ _ _ _ _ _ _ _ (ok_jdT _ _ _ _ _ _ HP s _ w t _ HI eq_refl H1 H2))|].
  split; [apply (use_V _ _ _ _ _ _ _ _ _ (ok_jcTy _ _ _ _ _ _ HP s _ w HI eq_refl))|].
  apply (use_V _ _ _ _ _ _ _ _ _ (ok_jdTy _ _ _ _ _ _ HP s _ w HI eq_refl)).
Qed.
Theorem C57_primal_infeasibility P o safe fixmu B0 mu0 s : nlp_ok P -> opts_ok o -> reach P o safe fixmu B0 mu0 s -> forall w t,
  infeas P t (E s w) (ansN (cq_primal_inf P w t) s) /\
  infeas P (cv_norm o) (E s w) (ansN (cq_constr_viol P o w) s).
Proof.
  intros HP Ho HR w t. pose proof (reach_inv _ _ _ _ _ _ HP Ho _ HR) as HI.
  split; [apply (use_N _ _ _ _ _ _ _ _ _ (ok_pinf _ _ _ _ _ _ HP s _ w t HI eq_refl))|].
  apply (use_N _ _ _ _ _ _ _ _ _ (ok_pinf _ _ _ _ _ _ HP s _ w (cv_norm o) HI eq_refl)).
Qed.
(** the bounds as the user gave them: the answer is never a null pointer, and is the violation in the user's units *)
Theorem C57_original_bounds P o safe fixmu B0 mu0 s : nlp_ok P -> opts_ok o -> reach P o safe fixmu B0 mu0 s -> forall t,
  vec_is (ansV (cq_un_orig_L P) s) (nb P XL) (oviolL P (E s false)) /\
  (exists v, ansOV (cq_un_orig_U P) s = Some v /\ vec_is v (nb P XU) (oviolU P (E s false))) /\
  (exists r, ansN (cq_un_orig_bv P t) s = Some r /\ norm_is t [(nb P XL, oviolL P (E s false)); (nb P XU, oviolU P (E s false))] r) /\
  vec_is (ansV (cq_orig_L P) s) (nb P XL) (sviolL P (E s false)) /\
  (exists v, ansOV (cq_orig_U P) s = Some v /\ vec_is v (nb P XU) (sviolU P (E s false))) /\
  (exists r, ansN (cq_orig_bv P t) s = Some r /\ norm_is t [(nb P XL, sviolL P (E s false)); (nb P XU, sviolU P (E s false))] r).
Proof.
  intros HP Ho HR t. pose proof (reach_inv _ _ _ _ _ _ HP Ho _ HR) as HI.
  assert (U : forall m Q, wp P o safe fixmu B0 mu0 m (optV Q) s -> exists v, ansOV m s = Some v /\ Q v).
  { intros m Q H. unfold wp in H. unfold ansOV. destruct (m s) as [r s']. destruct H as (_ & _ & t' & v & -> & [_ Hv] & HQ). cbn [fst snd]. exists v. rewrite Hv. auto. }
  split.
  { unfold ansV. pose proof (ok_unoL _ _ _ _ _ _ HP s _ HI eq_refl) as H. unfold wp in H. destruct (cq_un_orig_L P s) as [a s'].
    destruct H as (_ & _ & u & va & vb & _ & [_ Ha] & _ & Qa & _). cbn [fst snd]. rewrite Ha. exact Qa. }
  split; [apply U; apply (ok_unoU _ _ _ _ _ _ HP s _ HI eq_refl)|].
  split; [apply (use_N _ _ _ _ _ _ _ _ _ (ok_unobv _ _ _ _ _ _ HP s _ t HI eq_refl))|].
  split; [apply (use_V _ _ _ _ _ _ _ _ _ (ok_oL _ _ _ _ _ _ HP s _ HI eq_refl))|].
  split; [apply U; apply (ok_oU _ _ _ _ _ _ HP s _ HI eq_refl)|].
  apply (use_N _ _ _ _ _ _ _ _ _ (ok_obv _ _ _ _ _ _ HP s _ t HI eq_refl)).
Qed.
(** asking never changes the iterates, the barrier parameter, the bounds or any vector that exists *)
Theorem C57_asking_changes_nothing P o safe fixmu B0 mu0 s q : nlp_ok P -> opts_ok o -> reach P o safe fixmu B0 mu0 s -> asks_ok P s q ->
  let s' := ask P o q s in
  curr s' = curr s /\ trial s' = trial s /\ delta s' = delta s /\ mu s' = mu s /\ bnd s' = bnd s /\
  E s' false = E s false /\ E s' true = E s true /\ D s' = D s /\ forall t, (t < length (store s))%nat -> val s' t = val s t.
Proof.
  intros HP Ho HR Hq s'. pose proof (reach_inv _ _ _ _ _ _ HP Ho _ HR) as HI.
  destruct (proj2 (ask_inv _ _ _ _ _ _ HP Ho s q HI Hq)) as [[l El] Ev]. fold s' in El, Ev.
  assert (G : forall A (f : view -> A), f (vw s') = f (vw s)) by (intros A f; rewrite Ev; reflexivity).
  split; [exact (G _ v_c)|]. split; [exact (G _ v_t)|]. split; [exact (G _ v_d)|]. split; [exact (G _ v_mu)|]. split; [exact (G _ v_bnd)|].
  split; [exact (G _ v_ec)|]. split; [exact (G _ v_et)|]. split; [exact (G _ v_ed)|].
  intros t Ht. apply (val_app _ _ _ _ El Ht).
Qed.

(** * C58: the gradient of the Lagrangian and the dual infeasibility, when the objective does not depend on
    the barrier parameter or the barrier parameter never changes *)
Definition mufree (P : nlp) (fixmu : bool) : Prop := dep_mu P = false \/ fixmu = true.
Lemma glag_mu P o safe fixmu B0 mu0 s e i : Inv P o safe fixmu B0 mu0 s -> mufree P fixmu -> glag_x P mu0 e i = glag_x P (mu s) e i.
Proof.
  intros HI Hm. unfold glag_x. pose proof (gobj_mu P o safe fixmu B0 mu0 s _ (e_x e) HI eq_refl Hm) as G. cbn [v_mu vw] in G. rewrite G. reflexivity.
Qed.
Theorem C58_lagrangian_gradient P o safe fixmu B0 mu0 s : nlp_ok P -> opts_ok o -> reach P o safe fixmu B0 mu0 s -> mufree P fixmu -> forall w,
  vec_is (ansV (cq_grad_lag_x P w) s) (n_x P) (glag_x P (mu s) (E s w)) /\
  vec_is (ansV (cq_grad_lag_s P w) s) (n_s P) (glag_s P (E s w)) /\
  vec_is (ansV (cq_grad_lag_damp_x P o) s) (n_x P) (fun i => glag_x P (mu s) (E s false) i + mu s * dampg_x P o i) /\
  vec_is (ansV (cq_grad_lag_damp_s P o) s) (n_s P) (fun i => glag_s P (E s false) i + mu s * dampg_s P o i).
Proof.
  intros HP Ho HR Hm w. pose proof (reach_inv _ _ _ _ _ _ HP Ho _ HR) as HI.
  split; [eapply vis_ext; [apply (use_V _ _ _ _ _ _ _ _ _ (ok_glx _ _ _ _ _ _ HP s _ w HI eq_refl) Hm)|intros i _; apply (glag_mu P o safe fixmu B0 mu0 s _ _ HI Hm)]|].
  split; [apply (use_V _ _ _ _ _ _ _ _ _ (ok_gls _ _ _ _ _ _ HP s _ w HI eq_refl))|].
  split; [eapply vis_ext; [apply (use_V _ _ _ _ _ _ _ _ _ (ok_gldx _ _ _ _ _ _ HP s _ HI eq_refl) Hm)|intros i _; cbv beta; rewrite (glag_mu P o safe fixmu B0 mu0 s _ _ HI Hm); reflexivity]|].
  apply (use_V _ _ _ _ _ _ _ _ _ (ok_glds _ _ _ _ _ _ HP s _ HI eq_refl)).
Qed.
Lemma dinf_mu P o safe fixmu B0 mu0 s t e r : Inv P o safe fixmu B0 mu0 s -> mufree P fixmu -> dinfeas P t mu0 e r -> dinfeas P t (mu s) e r.
Proof.
  intros HI Hm. apply norm_ext. repeat apply Forall2_cons; try apply Forall2_nil; cbn [fst snd]; (split; [reflexivity|]); intros i _; [|reflexivity].
  rewrite (glag_mu P o safe fixmu B0 mu0 s _ _ HI Hm). reflexivity.
Qed.
Lemma undinf_mu P o safe fixmu B0 mu0 s t e r : Inv P o safe fixmu B0 mu0 s -> mufree P fixmu -> un_dinfeas P t mu0 e r -> un_dinfeas P t (mu s) e r.
Proof.
  intros HI Hm. apply norm_ext. repeat apply Forall2_cons; try apply Forall2_nil; cbn [fst snd]; (split; [reflexivity|]); intros i _; [|reflexivity].
  rewrite (glag_mu P o safe fixmu B0 mu0 s _ _ HI Hm). reflexivity.
Qed.
Theorem C58_dual_infeasibility P o safe fixmu B0 mu0 s : nlp_ok P -> opts_ok o -> reach P o safe fixmu B0 mu0 s -> mufree P fixmu -> forall w t,
  dinfeas P t (mu s) (E s w) (ansN (cq_dual_inf P w t) s) /\
  un_dinfeas P t (mu s) (E s false) (ansN (cq_unscaled_dual_inf P t) s).
Proof.
  intros HP Ho HR Hm w t. pose proof (reach_inv _ _ _ _ _ _ HP Ho _ HR) as HI.
  split; [apply (dinf_mu P o safe fixmu B0 mu0 s _ _ _ HI Hm); apply (use_N _ _ _ _ _ _ _ _ _ (ok_dinf _ _ _ _ _ _ HP s _ w t HI eq_refl) Hm)|].
  apply (undinf_mu P o safe fixmu B0 mu0 s _ _ _ HI Hm); apply (use_N _ _ _ _ _ _ _ _ _ (ok_undinf _ _ _ _ _ _ HP s _ t HI eq_refl) Hm).
Qed.
(** the barrier parameter is not in the key: a changed barrier parameter gives the old answer *)
Definition change_mu (s : st) (m : R) : st :=
  St (store s) (curr s) (trial s) (delta s) m (bnd s) (nca s) (vca s) (mca s) (pca s) (damp s) (nadj s).
Theorem C58_new_mu_old_gradient P o safe fixmu B0 mu0 s m : nlp_ok P -> opts_ok o -> reach P o safe fixmu B0 mu0 s ->
  ansV (cq_grad_lag_x P false) (change_mu (ask P o (Q_glx false) s) m) = ansV (cq_grad_lag_x P false) s.
Proof.
  intros HP Ho HR. destruct (C57_asking_changes_nothing P o safe fixmu B0 mu0 s (Q_glx false) HP Ho HR Logic.I) as (Hc & _).
  cbn [ask] in *. unfold after in *. set (k := ([i_x (curr s); i_yc (curr s); i_yd (curr s); i_zL (curr s); i_zU (curr s)], @nil R)).
  assert (H : exists comp, cq_grad_lag_x P false s = qv (VC_glx false) (Some (VC_glx true)) k comp s) by (eexists; reflexivity).
  destruct H as [comp Hr].
  assert (H2 : exists comp', cq_grad_lag_x P false (change_mu (snd (cq_grad_lag_x P false s)) m) =
    qv (VC_glx false) (Some (VC_glx true)) k comp' (change_mu (snd (cq_grad_lag_x P false s)) m)).
  { subst k. rewrite <- Hc. eexists. reflexivity. }
  destruct H2 as [comp' H2]. unfold ansV. rewrite H2.
  rewrite (qv_hit _ _ _ _ _ (fst (cq_grad_lag_x P false s))); [reflexivity|].
  change (look (vca (snd (cq_grad_lag_x P false s)) (VC_glx false)) k = Some (fst (cq_grad_lag_x P false s))).
  rewrite Hr. apply qv_again. cbn. lia.
Qed.

(** a problem whose objective is mu * x, as in the restoration phase *)
Definition exR : nlp := NLP 1 0 0 [] [] [] [] true (fun _ => 0) (fun x m => m * x.[0]) (fun _ => [0]) (fun _ m => [m])
  (fun _ => []) (fun _ => []) (fun _ => Mat 0 1 (fun _ _ => 0)) (fun _ => Mat 0 1 (fun _ _ => 0))
  (fun _ _ _ _ => Mat 1 1 (fun _ _ => 0)) (fun _ _ _ _ _ => Mat 1 1 (fun _ _ => 0)) 1 (fun _ => 1) (fun _ => 1) (fun _ => 1) false None None.
Definition exO : opts := Opts 100 (1/100000) (1/100) 0 N1 (1/1000000) (1/2000000).
Definition exI : iter := It 0 1 1 1 1 1 1 1.
Definition exS (x : R) (B : bd -> vec) (m : R) : st :=
  St [[x]; []] exI exI exI m B (fun _ => []) (fun _ => []) (fun _ => []) [] None (fun _ => 0%Z).
Lemma exO_ok : opts_ok exO.
Proof. constructor; cbn; lra. Qed.
Lemma exR_ok : nlp_ok exR.
Proof.
  constructor; cbn; try reflexivity; try (intros; split; reflexivity); try (intros; lra); try lra; try (intros; discriminate).
  - intros [] i []. - intros []; constructor.
Qed.
Lemma exR_start safe : start exR exO safe (fun _ => []) 1 (exS 0 (fun _ => []) 1).
Proof.
  assert (H : iter_ok exR exO safe (fun _ => []) (exS 0 (fun _ => []) 1) exI).
  { split; [repeat constructor|]. split; [repeat split; reflexivity|]. intros _ b k Hk. destruct b; cbn in Hk; lia. }
  repeat (split; [first [reflexivity|exact H|intros []; split; reflexivity]|]). split; apply H.
Qed.
Theorem C58_mu_dependent_objective_refuted :
  ~ (forall P o B0 mu0 s, nlp_ok P -> opts_ok o -> reach P o true false B0 mu0 s ->
       vec_is (ansV (cq_grad_lag_x P false) s) (n_x P) (glag_x P (mu s) (E s false))).
Proof.
  intros H. pose proof (exR_start true) as HS. set (s := exS 0 (fun _ => []) 1) in *.
  assert (R0 : reach exR exO true false (fun _ => []) 1 s) by (apply reach_start; exact HS).
  pose proof (H exR exO _ 1 s exR_ok exO_ok R0) as A.
  assert (R1 : reach exR exO true false (fun _ => []) 1 (ask exR exO (Q_glx false) s)) by (eapply reach_step; [exact R0|apply S_ask; exact Logic.I]).
  assert (R2 : reach exR exO true false (fun _ => []) 1 (change_mu (ask exR exO (Q_glx false) s) 2)) by (eapply reach_step; [exact R1|apply S_mu; reflexivity]).
  pose proof (H exR exO _ 1 _ exR_ok exO_ok R2) as B.
  rewrite (C58_new_mu_old_gradient exR exO true false _ 1 s 2 exR_ok exO_ok R0) in B.
  destruct A as [_ A]. destruct B as [_ B]. specialize (A O ltac:(cbn; lia)). specialize (B O ltac:(cbn; lia)). rewrite A in B.
  unfold glag_x in B. cbn [gobj exR dep_mu fn_g_mu nth] in B. unfold gobj, JTv, scat in B. cbn in B. lra.
Qed.

(** * C59: slacks, barrier function, complementarity and error measures, when every iterate is in the interior and the bounds stay *)
Theorem C59_slacks_and_barrier P o fixmu B0 mu0 s : nlp_ok P -> opts_ok o -> reach P o true fixmu B0 mu0 s -> forall w b,
  vec_is (ansV (cq_slack P o w b) s) (nb P b) (sl P B0 b (E s w)) /\
  ansN (cq_barrier_obj P o w) s = barrier P o B0 (mu s) (E s w) /\
  vec_is (ansV (cq_grad_barrier_x P o) s) (n_x P) (gbar_x P o B0 (mu s) (E s false)) /\
  vec_is (ansV (cq_grad_barrier_s P o) s) (n_s P) (gbar_s P o B0 (mu s) (E s false)) /\
  vec_is (ansV (cq_grad_kappa_x P o) s) (n_x P) (dampg_x P o) /\
  vec_is (ansV (cq_grad_kappa_s P o) s) (n_s P) (dampg_s P o) /\
  ansN (cq_grad_barr_delta P o) s = gbtd P o B0 (mu s) (E s false) (e_x (D s)) (e_s (D s)).
Proof.
  intros HP Ho HR w b. pose proof (reach_inv _ _ _ _ _ _ HP Ho _ HR) as HI.
  split; [apply (use_V _ _ _ _ _ _ _ _ _ (ok_slack _ _ _ _ _ _ HP Ho s _ w b HI eq_refl) eq_refl)|].
  split; [apply (use_N _ _ _ _ _ _ _ _ _ (ok_bar _ _ _ _ _ _ HP Ho s _ w HI eq_refl) eq_refl)|].
  split; [apply (use_V _ _ _ _ _ _ _ _ _ (ok_gbx _ _ _ _ _ _ HP Ho s _ HI eq_refl) eq_refl)|].
  split; [apply (use_V _ _ _ _ _ _ _ _ _ (ok_gbs _ _ _ _ _ _ HP Ho s _ HI eq_refl) eq_refl)|].
  split; [apply (use_V _ _ _ _ _ _ _ _ _ (ok_gkx _ _ _ _ _ _ HP Ho s _ HI eq_refl))|].
  split; [apply (use_V _ _ _ _ _ _ _ _ _ (ok_gks _ _ _ _ _ _ HP Ho s _ HI eq_refl))|].
  apply (use_N _ _ _ _ _ _ _ _ _ (ok_gbtd _ _ _ _ _ _ HP Ho s _ HI eq_refl) eq_refl).
Qed.
Theorem C59_complementarity P o fixmu B0 mu0 s : nlp_ok P -> opts_ok o -> reach P o true fixmu B0 mu0 s -> forall w b m t,
  vec_is (ansV (cq_compl P o w b) s) (nb P b) (fun k => sl P B0 b (E s w) k * mul b (E s w) k) /\
  vec_is (ansV (cq_relaxed_compl P o b) s) (nb P b) (fun k => sl P B0 b (E s false) k * mul b (E s false) k - mu s) /\
  compl P B0 t m (E s w) (ansN (cq_complementarity P o w m t) s) /\
  (exists c, compl P B0 t m (E s false) c /\ ansN (cq_unscaled_compl P o m t) s = Rabs (c / so P)) /\
  centr P B0 (E s false) (ansN (cq_centrality P o) s) /\
  ansN (cq_avrg_compl P o w) s = avrg P B0 (E s w) /\
  vec_is (ansV (cq_sigma_x P o) s) (n_x P) (sigma_x P B0 (E s false)) /\
  vec_is (ansV (cq_sigma_s P o) s) (n_s P) (sigma_s P B0 (E s false)).
Proof.
  intros HP Ho HR w b m t. pose proof (reach_inv _ _ _ _ _ _ HP Ho _ HR) as HI.
  split; [apply (use_V _ _ _ _ _ _ _ _ _ (ok_cmpl _ _ _ _ _ _ HP Ho s _ w b HI eq_refl) eq_refl)|].
  split; [apply (use_V _ _ _ _ _ _ _ _ _ (ok_relc _ _ _ _ _ _ HP Ho s _ b HI eq_refl) eq_refl)|].
  split; [apply (use_N _ _ _ _ _ _ _ _ _ (ok_compl _ _ _ _ _ _ HP Ho s _ w m t HI eq_refl) eq_refl)|].
  split; [apply (use_N _ _ _ _ _ _ _ _ _ (ok_uncompl _ _ _ _ _ _ HP Ho s _ m t HI eq_refl) eq_refl)|].
  split; [apply (use_N _ _ _ _ _ _ _ _ _ (ok_centr _ _ _ _ _ _ HP Ho s _ HI eq_refl) eq_refl)|].
  split; [apply (use_N _ _ _ _ _ _ _ _ _ (ok_avrg _ _ _ _ _ _ HP Ho s _ w HI eq_refl) eq_refl)|].
  split; [apply (use_V _ _ _ _ _ _ _ _ _ (ok_sigx _ _ _ _ _ _ HP Ho s _ HI eq_refl) eq_refl)|].
  apply (use_V _ _ _ _ _ _ _ _ _ (ok_sigs _ _ _ _ _ _ HP Ho s _ HI eq_refl) eq_refl).
Qed.
Theorem C59_constraint_violation P o fixmu B0 mu0 s : nlp_ok P -> opts_ok o -> reach P o true fixmu B0 mu0 s -> forall w t,
  nlpviol P B0 t (E s false) (ansN (cq_nlp_cv P t) s) /\
  un_nlpviol P B0 t (E s w) (ansN (cq_unscaled_nlp_cv P w t) s).
Proof.
  intros HP Ho HR w t. pose proof (reach_inv _ _ _ _ _ _ HP Ho _ HR) as HI.
  split; [apply (use_N _ _ _ _ _ _ _ _ _ (ok_nlpcv _ _ _ _ _ _ HP s _ t HI eq_refl) eq_refl)|].
  apply (use_N _ _ _ _ _ _ _ _ _ (ok_uncv _ _ _ _ _ _ HP s _ w t HI eq_refl) eq_refl).
Qed.
(** the errors the convergence tests and the barrier updates compare with tolerances *)
Theorem C59_error_measures P o fixmu B0 mu0 s : nlp_ok P -> opts_ok o -> reach P o true fixmu B0 mu0 s -> mufree P fixmu -> forall w m,
  nlperr P o B0 (mu s) (E s false) (ansN (cq_nlp_error P o) s) /\
  un_nlperr P o B0 (mu s) (E s false) (ansN (cq_unscaled_nlp_error P o) s) /\
  barerr P o B0 (mu s) (E s false) (ansN (cq_barrier_error P o) s) /\
  pderr P B0 (mu s) m (E s w) (ansN (cq_pd_error P o w m) s).
Proof.
  intros HP Ho HR Hm w m. pose proof (reach_inv _ _ _ _ _ _ HP Ho _ HR) as HI.
  pose proof (fun t e r => dinf_mu P o true fixmu B0 mu0 s t e r HI Hm) as Dm.
  pose proof (fun t e r => undinf_mu P o true fixmu B0 mu0 s t e r HI Hm) as Um.
  split; [|split; [|split]].
  - destruct (use_N _ _ _ _ _ _ _ _ _ (ok_nlperr _ _ _ _ _ _ HP Ho s _ HI eq_refl) eq_refl Hm) as (a & b & c & A & B & C & E0). exists a, b, c. split; [apply Dm; exact A|auto].
  - destruct (use_N _ _ _ _ _ _ _ _ _ (ok_unnlperr _ _ _ _ _ _ HP Ho s _ HI eq_refl) eq_refl Hm) as (a & b & c & A & B & C & E0). exists a, b, c. split; [apply Um; exact A|auto].
  - destruct (use_N _ _ _ _ _ _ _ _ _ (ok_barerr _ _ _ _ _ _ HP Ho s _ HI eq_refl) eq_refl Hm) as (a & b & c & A & B & C & E0). exists a, b, c. split; [apply Dm; exact A|auto].
  - destruct (use_N _ _ _ _ _ _ _ _ _ (ok_pde _ _ _ _ _ _ HP Ho s _ w m HI eq_refl) eq_refl Hm) as (a & b & c & A & B & C & E0). exists a, b, c. split; [apply Dm; exact A|auto].
Qed.

(** the bounds are not in the key: adjusted bounds give the old violation *)
Definition change_bounds (s : st) (B : bd -> vec) : st :=
  St (store s) (curr s) (trial s) (delta s) (mu s) B (nca s) (vca s) (mca s) (pca s) (damp s) (nadj s).
Theorem C59_new_bounds_old_violation P o safe fixmu B0 mu0 s B t : nlp_ok P -> opts_ok o -> reach P o safe fixmu B0 mu0 s ->
  ansN (cq_nlp_cv P t) (change_bounds (ask P o (Q_nlpcv t) s) B) = ansN (cq_nlp_cv P t) s.
Proof.
  intros HP Ho HR. destruct (C57_asking_changes_nothing P o safe fixmu B0 mu0 s (Q_nlpcv t) HP Ho HR Logic.I) as (Hc & _).
  cbn [ask] in *. unfold after in *. set (k := ([i_x (curr s)], [nnum t])).
  assert (H : exists comp, cq_nlp_cv P t s = qn NC_nlpcv None k comp s) by (eexists; reflexivity).
  destruct H as [comp Hr].
  assert (H2 : exists comp', cq_nlp_cv P t (change_bounds (snd (cq_nlp_cv P t s)) B) = qn NC_nlpcv None k comp' (change_bounds (snd (cq_nlp_cv P t s)) B)).
  { subst k. rewrite <- Hc. eexists. reflexivity. }
  destruct H2 as [comp' H2]. unfold ansN. rewrite H2.
  rewrite (qn_hit _ _ _ _ _ (fst (cq_nlp_cv P t s))); [reflexivity|].
  change (look (nca (snd (cq_nlp_cv P t s)) NC_nlpcv) k = Some (fst (cq_nlp_cv P t s))).
  rewrite Hr. apply qn_again. cbn. lia.
Qed.
(** one inequality constraint d(x) = 0 with a lower bound *)
Definition exD : nlp := NLP 1 1 0 [] [] [O] [] false (fun x => x.[0]) (fun _ _ => 0) (fun _ => [1]) (fun _ _ => [1])
  (fun _ => []) (fun _ => [0]) (fun _ => Mat 0 1 (fun _ _ => 0)) (fun _ => Mat 1 1 (fun _ _ => 0))
  (fun _ _ _ _ => Mat 1 1 (fun _ _ => 0)) (fun _ _ _ _ _ => Mat 1 1 (fun _ _ => 0)) 1 (fun _ => 1) (fun _ => 1) (fun _ => 1) false None None.
Definition exB (l : R) (b : bd) : vec := match b with SL => [l] | _ => [] end.
Definition exID : iter := It 0 0 1 0 1 1 2 1.
Definition exSD : st :=
  St [[0]; []; [1]] exID exID exID 1 (exB (-1)) (fun _ => []) (fun _ => []) (fun _ => []) [] None (fun _ => 0%Z).
Lemma exD_ok : nlp_ok exD.
Proof.
  constructor; cbn; try reflexivity; try (intros; split; reflexivity); try (intros; lra); try lra; try (intros; discriminate).
  - intros [] i H; cbn in H; try tauto. destruct H as [<-|[]]. lia.
  - intros []; cbn; repeat constructor. intros [].
Qed.
Lemma exD_start safe : start exD exO safe (exB (-1)) 1 exSD.
Proof.
  assert (H : iter_ok exD exO safe (exB (-1)) exSD exID).
  { split; [repeat constructor|]. split; [repeat split; reflexivity|]. intros _ b k Hk. destruct b; cbn in Hk; try lia.
    destruct k; [|lia]. unfold sl. cbn. lra. }
  repeat (split; [first [reflexivity|exact H|intros []; split; reflexivity]|]). split; apply H.
Qed.
Theorem C59_adjusted_bounds_violation_refuted :
  ~ (forall P o B0 mu0 s t, nlp_ok P -> opts_ok o -> reach P o false true B0 mu0 s ->
       nlpviol P (bnd s) t (E s false) (ansN (cq_nlp_cv P t) s)).
Proof.
  intros H. pose proof (exD_start true) as HS. pose proof (exD_start false) as HS'.
  assert (RT : reach exD exO true true (exB (-1)) 1 exSD) by (apply reach_start; exact HS).
  assert (R0 : reach exD exO false true (exB (-1)) 1 exSD) by (apply reach_start; exact HS').
  pose proof (proj1 (C59_constraint_violation exD exO true _ 1 exSD exD_ok exO_ok RT true NMax)) as A.
  assert (R1 : reach exD exO false true (exB (-1)) 1 (ask exD exO (Q_nlpcv NMax) exSD)) by (eapply reach_step; [exact R0|apply S_ask; exact Logic.I]).
  assert (R2 : reach exD exO false true (exB (-1)) 1 (change_bounds (ask exD exO (Q_nlpcv NMax) exSD) (exB 1))).
  { eapply reach_step; [exact R1|apply S_bounds; [reflexivity|]]. intros []; reflexivity. }
  pose proof (H exD exO _ 1 _ NMax exD_ok exO_ok R2) as B.
  rewrite (C59_new_bounds_old_violation exD exO false true _ 1 exSD (exB 1) NMax exD_ok exO_ok R0) in B.
  set (r := ansN (cq_nlp_cv exD NMax) exSD) in *. clearbody r.
  destruct A as [_ A]. destruct B as [B _].
  assert (Hr : r = 0).
  { destruct A as [A|(f & i & Hf & Hi & A)]; [exact A|]. cbn [In] in Hf. destruct Hf as [<-|[<-|[<-|[]]]]; cbn [fst snd] in *; try (cbn in Hi; lia).
    cbn in Hi. destruct i; [|lia]. change (r = Rabs (Rmax 0 (-1 - 0))) in A. rewrite A. unfold Rmax. destruct (Rle_dec 0 (-1 - 0)); [lra|apply Rabs_R0]. }
  specialize (B _ O (or_intror (or_introl eq_refl)) ltac:(cbn; lia)). cbn [snd] in B.
  change (Rabs (Rmax 0 (1 - 0)) <= r) in B. rewrite Hr in B. pose proof (Rmax_r 0 (1 - 0)).
  rewrite Rabs_right in B by (pose proof (Rmax_l 0 (1 - 0)); lra). lra.
Qed.

(** the gradient of the barrier function is its derivative (so the formula in the specification is the right one) *)
Definition bump_x (e : env) (i : nat) (h : R) : env := Env (vupd (e_x e) i ((e_x e).[i] + h)) (e_s e) (e_yc e) (e_yd e) (e_zL e) (e_zU e) (e_vL e) (e_vU e).
Definition bump_s (e : env) (i : nat) (h : R) : env := Env (e_x e) (vupd (e_s e) i ((e_s e).[i] + h)) (e_yc e) (e_yd e) (e_zL e) (e_zU e) (e_vL e) (e_vU e).
Lemma vupd_nth v : forall i a j, (i < length v)%nat -> (vupd v i a).[j] = if Nat.eqb j i then a else v.[j].
Proof.
  induction v as [|x v IH]; intros i a j Hi; cbn in Hi; [lia|]. destruct i as [|i]; destruct j as [|j]; cbn; try reflexivity.
  apply IH. lia.
Qed.
Lemma dlim_ext (f g : R -> R) x l : (forall h, f h = g h) -> derivable_pt_lim f x l -> derivable_pt_lim g x l.
Proof. intros E H e He. destruct (H e He) as [d Hd]. exists d. intros h H1 H2. rewrite <- !E. apply Hd; assumption. Qed.
Lemma dlim_lin q c : derivable_pt_lim (fun h => q + c * h) 0 c.
Proof.
  pose proof (derivable_pt_lim_plus _ _ 0 _ _ (derivable_pt_lim_const q 0) (derivable_pt_lim_scal id c 0 1 (derivable_pt_lim_id 0))) as H.
  replace (0 + c * 1) with c in H by ring. exact H.
Qed.
Lemma dlim_ln q c : 0 < q -> derivable_pt_lim (fun h => ln (q + c * h)) 0 (c * (1 / q)).
Proof.
  intros Hq. replace (c * (1 / q)) with (/ (q + c * 0) * c) by (rewrite Rmult_0_r, Rplus_0_r; unfold Rdiv; ring).
  apply (derivable_pt_lim_comp (fun h => q + c * h) ln); [apply dlim_lin|]. apply derivable_pt_lim_ln. lra.
Qed.
Lemma dlim_sum n (f : R -> nat -> R) (g : nat -> R) : (forall k, (k < n)%nat -> derivable_pt_lim (fun h => f h k) 0 (g k)) ->
  derivable_pt_lim (fun h => sumn n (f h)) 0 (sumn n g).
Proof.
  induction n as [|n IH]; intros H; cbn [sumn]; [apply derivable_pt_lim_const|].
  apply (derivable_pt_lim_plus (fun h => sumn n (f h)) (fun h => f h n)); [apply IH; intros k Hk; apply H; lia|apply H; lia].
Qed.
Lemma dlim_barrier P o B m (e : R -> env) (c : bd -> nat -> R) e0 g : (forall b k, (k < nb P b)%nat -> 0 < sl P B b e0 k) ->
  (forall b k h, (k < nb P b)%nat -> sl P B b (e h) k = sl P B b e0 k + c b k * h) ->
  derivable_pt_lim (fun h => obj P m (e_x (e h))) 0 g ->
  derivable_pt_lim (fun h => barrier P o B m (e h)) 0
    (g - m * sumb (fun b => sumn (nb P b) (fun k => c b k * (1 / sl P B b e0 k)))
       + kappa_d o * m * sumb (fun b => sumn (nb P b) (fun k => ind P b k * c b k))).
Proof.
  intros Hp Hc Hg. unfold barrier.
  assert (D1 : forall b, derivable_pt_lim (fun h => sumn (nb P b) (fun k => ln (sl P B b (e h) k))) 0 (sumn (nb P b) (fun k => c b k * (1 / sl P B b e0 k)))).
  { intros b. apply (dlim_ext (fun h => sumn (nb P b) (fun k => ln (sl P B b e0 k + c b k * h)))).
    - intros h. apply sumn_ext. intros k Hk. rewrite Hc by exact Hk. reflexivity.
    - apply (dlim_sum _ (fun h k => ln (sl P B b e0 k + c b k * h))). intros k Hk. apply dlim_ln. apply Hp. exact Hk. }
  assert (D2 : forall b, derivable_pt_lim (fun h => sumn (nb P b) (fun k => ind P b k * sl P B b (e h) k)) 0 (sumn (nb P b) (fun k => ind P b k * c b k))).
  { intros b. apply (dlim_ext (fun h => sumn (nb P b) (fun k => ind P b k * sl P B b e0 k + ind P b k * c b k * h))).
    - intros h. apply sumn_ext. intros k Hk. rewrite Hc by exact Hk. ring.
    - apply (dlim_sum _ (fun h k => ind P b k * sl P B b e0 k + ind P b k * c b k * h)). intros k Hk. apply dlim_lin. }
  assert (Sm : forall (F : R -> bd -> R) (G : bd -> R), (forall b, derivable_pt_lim (fun h => F h b) 0 (G b)) -> derivable_pt_lim (fun h => sumb (F h)) 0 (sumb G)).
  { intros F G H. unfold sumb. repeat apply derivable_pt_lim_plus; apply H. }
  assert (Sc : forall (F : R -> R) l k, derivable_pt_lim F 0 l -> derivable_pt_lim (fun h => k * F h) 0 (k * l)).
  { intros F l k H. replace (k * l) with (0 * F 0 + k * l) by ring. apply (derivable_pt_lim_mult (fun _ => k) F); [apply derivable_pt_lim_const|exact H]. }
  apply (derivable_pt_lim_plus (fun h => obj P m (e_x (e h)) - m * sumb (fun b => sumn (nb P b) (fun k => ln (sl P B b (e h) k))))).
  - apply (derivable_pt_lim_minus (fun h => obj P m (e_x (e h)))); [exact Hg|]. apply Sc. apply (Sm _ _ D1).
  - apply Sc. apply (Sm _ _ D2).
Qed.
Lemma sumn_neg n f : sumn n (fun k => - f k) = - sumn n f.
Proof. induction n as [|n IH]; cbn [sumn]; [ring|]. rewrite IH. ring. Qed.
Lemma sumn_zero n f : (forall k, (k < n)%nat -> f k = 0) -> sumn n f = 0.
Proof. induction n as [|n IH]; intros H; cbn [sumn]; [reflexivity|]. rewrite IH, H by (intros; try apply H; lia). ring. Qed.
Theorem C59_barrier_gradient_x P o B m e i : (i < length (e_x e))%nat -> (forall b k, (k < nb P b)%nat -> 0 < sl P B b e k) ->
  derivable_pt_lim (fun h => obj P m (e_x (bump_x e i h))) 0 (gobj P m (e_x e)).[i] ->
  derivable_pt_lim (fun h => barrier P o B m (bump_x e i h)) 0 (gbar_x P o B m e i).
Proof.
  intros Hi Hp Hg.
  pose (c := fun b k => match b with XL => if Nat.eqb (nth k (pxL P) O) i then 1 else 0 | XU => if Nat.eqb (nth k (pxU P) O) i then -1 else 0 | _ => 0 end).
  pose proof (dlim_barrier P o B m (bump_x e i) c e (gobj P m (e_x e)).[i] Hp) as H.
  assert (Hc : forall b k h, (k < nb P b)%nat -> sl P B b (bump_x e i h) k = sl P B b e k + c b k * h).
  { intros b k h _. unfold sl, c, bump_x. cbn [e_x e_s]. destruct b; cbn [pos]; try rewrite vupd_nth by exact Hi; try ring.
    - destruct (Nat.eqb_spec (nth k (pxL P) O) i) as [->|]; ring.
    - destruct (Nat.eqb_spec (nth k (pxU P) O) i) as [->|]; ring. }
  specialize (H Hc Hg). replace (gbar_x P o B m e i) with
    ((gobj P m (e_x e)).[i] - m * sumb (fun b => sumn (nb P b) (fun k => c b k * (1 / sl P B b e k))) + kappa_d o * m * sumb (fun b => sumn (nb P b) (fun k => ind P b k * c b k))); [exact H|].
  unfold gbar_x, dampg_x, scat, sumb.
  rewrite (sumn_zero (nb P SL) (fun k => c SL k * (1 / sl P B SL e k))), (sumn_zero (nb P SU) (fun k => c SU k * (1 / sl P B SU e k))), (sumn_zero (nb P SL) (fun k => ind P SL k * c SL k)), (sumn_zero (nb P SU) (fun k => ind P SU k * c SU k)) by (intros; cbn; ring).
  rewrite (sumn_ext (nb P XL) (fun k => c XL k * (1 / sl P B XL e k)) (fun k => if Nat.eqb (nth k (pos P XL) O) i then 1 / sl P B XL e k else 0)) by (intros k _; cbn [c pos]; destruct (Nat.eqb _ i); ring).
  rewrite (sumn_ext (nb P XL) (fun k => ind P XL k * c XL k) (fun k => if Nat.eqb (nth k (pos P XL) O) i then ind P XL k else 0)) by (intros k _; cbn [c pos]; destruct (Nat.eqb _ i); ring).
  rewrite (sumn_ext (nb P XU) (fun k => c XU k * (1 / sl P B XU e k)) (fun k => - (if Nat.eqb (nth k (pos P XU) O) i then 1 / sl P B XU e k else 0))) by (intros k _; cbn [c pos]; destruct (Nat.eqb _ i); ring).
  rewrite (sumn_ext (nb P XU) (fun k => ind P XU k * c XU k) (fun k => - (if Nat.eqb (nth k (pos P XU) O) i then ind P XU k else 0))) by (intros k _; cbn [c pos]; destruct (Nat.eqb _ i); ring).
  rewrite !sumn_neg. unfold nb. ring.
Qed.
Theorem C59_barrier_gradient_s P o B m e i : (i < length (e_s e))%nat -> (forall b k, (k < nb P b)%nat -> 0 < sl P B b e k) ->
  derivable_pt_lim (fun h => barrier P o B m (bump_s e i h)) 0 (gbar_s P o B m e i).
Proof.
  intros Hi Hp.
  pose (c := fun b k => match b with SL => if Nat.eqb (nth k (pdL P) O) i then 1 else 0 | SU => if Nat.eqb (nth k (pdU P) O) i then -1 else 0 | _ => 0 end).
  pose proof (dlim_barrier P o B m (bump_s e i) c e 0 Hp) as H.
  assert (Hc : forall b k h, (k < nb P b)%nat -> sl P B b (bump_s e i h) k = sl P B b e k + c b k * h).
  { intros b k h _. unfold sl, c, bump_s. cbn [e_x e_s]. destruct b; cbn [pos]; try rewrite vupd_nth by exact Hi; try ring.
    - destruct (Nat.eqb_spec (nth k (pdL P) O) i) as [->|]; ring.
    - destruct (Nat.eqb_spec (nth k (pdU P) O) i) as [->|]; ring. }
  specialize (H Hc (derivable_pt_lim_const (obj P m (e_x e)) 0)). replace (gbar_s P o B m e i) with
    (0 - m * sumb (fun b => sumn (nb P b) (fun k => c b k * (1 / sl P B b e k))) + kappa_d o * m * sumb (fun b => sumn (nb P b) (fun k => ind P b k * c b k))); [exact H|].
  unfold gbar_s, dampg_s, scat, sumb.
  rewrite (sumn_zero (nb P XL) (fun k => c XL k * (1 / sl P B XL e k))), (sumn_zero (nb P XU) (fun k => c XU k * (1 / sl P B XU e k))), (sumn_zero (nb P XL) (fun k => ind P XL k * c XL k)), (sumn_zero (nb P XU) (fun k => ind P XU k * c XU k)) by (intros; cbn; ring).
  rewrite (sumn_ext (nb P SL) (fun k => c SL k * (1 / sl P B SL e k)) (fun k => if Nat.eqb (nth k (pos P SL) O) i then 1 / sl P B SL e k else 0)) by (intros k _; cbn [c pos]; destruct (Nat.eqb _ i); ring).
  rewrite (sumn_ext (nb P SL) (fun k => ind P SL k * c SL k) (fun k => if Nat.eqb (nth k (pos P SL) O) i then ind P SL k else 0)) by (intros k _; cbn [c pos]; destruct (Nat.eqb _ i); ring).
  rewrite (sumn_ext (nb P SU) (fun k => c SU k * (1 / sl P B SU e k)) (fun k => - (if Nat.eqb (nth k (pos P SU) O) i then 1 / sl P B SU e k else 0))) by (intros k _; cbn [c pos]; destruct (Nat.eqb _ i); ring).
  rewrite (sumn_ext (nb P SU) (fun k => ind P SU k * c SU k) (fun k => - (if Nat.eqb (nth k (pos P SU) O) i then ind P SU k else 0))) by (intros k _; cbn [c pos]; destruct (Nat.eqb _ i); ring).
  rewrite !sumn_neg. unfold nb. ring.
Qed.

(** * C60: the fraction-to-the-boundary steps are the largest admissible ones *)
Theorem C60_primal_step P o fixmu B0 mu0 s tau t1 t2 : nlp_ok P -> opts_ok o -> reach P o true fixmu B0 mu0 s ->
  0 <= tau <= 1 -> has s t1 (n_x P) -> has s t2 (n_s P) ->
  pftb P B0 tau (E s false) (val s t1) (val s t2) (ansN (cq_primal_frac P o tau t1 t2) s) /\
  pftb P B0 tau (E s false) (e_x (D s)) (e_s (D s)) (ansN (cq_curr_primal_frac P o tau) s).
Proof.
  intros HP Ho HR [Ht _] H1 H2. pose proof (reach_inv _ _ _ _ _ _ HP Ho _ HR) as HI.
  destruct (has_hv _ _ _ H1) as [V1 L1]. destruct (has_hv _ _ _ H2) as [V2 L2].
  split; [apply (use_N _ _ _ _ _ _ _ _ _ (ok_pfrac _ _ _ _ _ _ HP Ho s _ tau t1 t2 _ _ HI eq_refl V1 V2 L1 L2 Ht) eq_refl)|].
  destruct (I_d _ _ _ _ _ _ _ HI) as [Al (L3 & L4 & _)].
  unfold cq_curr_primal_frac. change (pftb P B0 tau (E s false) (e_x (D s)) (e_s (D s)) (ansN (cq_primal_frac P o tau (i_x (delta s)) (i_s (delta s))) s)).
  apply (use_N _ _ _ _ _ _ _ _ _ (ok_pfrac _ _ _ _ _ _ HP Ho s _ tau _ _ _ _ HI eq_refl (it_dx _ _ _ _ _ _ s _ HI eq_refl) (it_ds _ _ _ _ _ _ s _ HI eq_refl) L3 L4 Ht) eq_refl).
Qed.
Theorem C60_dual_step P o safe fixmu B0 mu0 s tau t1 t2 t3 t4 : nlp_ok P -> opts_ok o -> reach P o safe fixmu B0 mu0 s ->
  0 <= tau <= 1 -> has s t1 (nb P XL) -> has s t2 (nb P XU) -> has s t3 (nb P SL) -> has s t4 (nb P SU) ->
  (forall b k, (k < nb P b)%nat -> 0 <= mul b (E s false) k) ->
  dftb P tau (E s false) (fun b => match b with XL => val s t1 | XU => val s t2 | SL => val s t3 | SU => val s t4 end)
    (ansN (cq_dual_frac tau t1 t2 t3 t4) s).
Proof.
  intros HP Ho HR [Ht _] H1 H2 H3 H4 Hp. pose proof (reach_inv _ _ _ _ _ _ HP Ho _ HR) as HI.
  destruct (has_hv _ _ _ H1) as [V1 L1]. destruct (has_hv _ _ _ H2) as [V2 L2]. destruct (has_hv _ _ _ H3) as [V3 L3]. destruct (has_hv _ _ _ H4) as [V4 L4].
  apply (use_N _ _ _ _ _ _ _ _ _ (ok_dfrac _ _ _ _ _ _ s _ tau t1 t2 t3 t4 _ _ _ _ HI eq_refl V1 V2 V3 V4 L1 L2 L3 L4 Ht) Hp).
Qed.
Theorem C60_slack_step P o fixmu B0 mu0 s tau t1 t2 t3 t4 : nlp_ok P -> opts_ok o -> reach P o true fixmu B0 mu0 s ->
  0 <= tau <= 1 -> has s t1 (nb P XL) -> has s t2 (nb P XU) -> has s t3 (nb P SL) -> has s t4 (nb P SU) ->
  sftb P B0 tau (E s false) (fun b => match b with XL => val s t1 | XU => val s t2 | SL => val s t3 | SU => val s t4 end)
    (ansN (cq_unc_slack_frac P o tau t1 t2 t3 t4) s).
Proof.
  intros HP Ho HR [Ht _] H1 H2 H3 H4. pose proof (reach_inv _ _ _ _ _ _ HP Ho _ HR) as HI.
  destruct (has_hv _ _ _ H1) as [V1 L1]. destruct (has_hv _ _ _ H2) as [V2 L2]. destruct (has_hv _ _ _ H3) as [V3 L3]. destruct (has_hv _ _ _ H4) as [V4 L4].
  apply (use_N _ _ _ _ _ _ _ _ _ (ok_sfrac _ _ _ _ _ _ HP Ho s _ tau t1 t2 t3 t4 _ _ _ _ HI eq_refl V1 V2 V3 V4 L1 L2 L3 L4 Ht) eq_refl).
Qed.
(** in particular the primal step keeps every slack positive when tau < 1 *)
Theorem C60_step_stays_inside P o fixmu B0 mu0 s tau t1 t2 : nlp_ok P -> opts_ok o -> reach P o true fixmu B0 mu0 s ->
  0 <= tau < 1 -> has s t1 (n_x P) -> has s t2 (n_s P) ->
  let a := ansN (cq_primal_frac P o tau t1 t2) s in
  forall b k, (k < nb P b)%nat -> 0 < sl P B0 b (E s false) k + a * dsl P b (val s t1) (val s t2) k.
Proof.
  intros HP Ho HR Ht H1 H2 a b k Hk. destruct (proj1 (C60_primal_step P o fixmu B0 mu0 s tau t1 t2 HP Ho HR ltac:(lra) H1 H2)) as (_ & K & _).
  pose proof (reach_inv _ _ _ _ _ _ HP Ho _ HR) as HI. pose proof (proj2 (iv_env _ _ _ _ _ _ s _ false HI eq_refl) eq_refl b k Hk) as Hi.
  pose proof (ok_eps _ Ho). specialize (K (nb P b) (sl P B0 b (E s false)) (dsl P b (val s t1) (val s t2)) k). cbv beta in K. fold a in K.
  assert (X : 0 < (1 - tau) * sl P B0 b (E s false) k) by (apply Rmult_lt_0_compat; [lra|change (v_env (vw s) false) with (E s false) in Hi; lra]).
  assert (Y : In (nb P b, sl P B0 b (E s false), dsl P b (val s t1) (val s t2)) (map (fun b => (nb P b, sl P B0 b (E s false), dsl P b (val s t1) (val s t2))) all_b)).
  { destruct b; cbn; auto. }
  specialize (K Y Hk). lra.
Qed.

(** * C61: the correction of slacks that are too small *)
(** (a zero multiplier, for which the code divides by zero, is excluded) *)
Theorem C61_safe_slack o m slack bound mult n : opts_ok o -> 0 <= m -> length slack = n -> length bound = n -> length mult = n ->
  (forall k, (k < n)%nat -> 0 < mult.[k]) ->
  let r := fst (safe_slack o m slack bound mult) in
  let least := smin o m in
  0 < least /\ length r = n /\
  (forall k, (k < n)%nat -> least <= slack.[k] -> r.[k] = slack.[k]) /\
  (forall k, (k < n)%nat -> slack.[k] < least ->
     r.[k] = Rmin (Rmax (m / mult.[k]) least) (Rmax (slack.[k]) 0 + slack_move o * Rmax 1 (Rabs bound.[k]))) /\
  snd (safe_slack o m slack bound mult) = Z.of_nat (count n (fun k => low slack.[k] least)).
Proof.
  intros Ho Hm Hs Hb Hz _ r least.
  destruct (safe_slack_is o m slack bound mult n _ _ _ Ho Hm (vis_self _ _ Hs) (vis_self _ _ Hb) (vis_self _ _ Hz)) as [[L F] C].
  split; [apply smin_pos; assumption|]. split; [exact L|]. split; [|split; [|exact C]].
  - intros k Hk Hl. unfold r. rewrite (F k Hk). destruct (Rlt_dec slack.[k] (smin o m)) as [H|]; [unfold least in Hl; lra|reflexivity].
  - intros k Hk Hl. unfold r. rewrite (F k Hk). destruct (Rlt_dec slack.[k] (smin o m)) as [H|H]; [reflexivity|unfold least in Hl; lra].
Qed.
(** never smaller than the true slack, moved by at most slack_move * max(1,|bound|), and positive unless slack_move is zero *)
Theorem C61_safe_slack_bounds o m slack bound mult n k : opts_ok o -> 0 <= m -> length slack = n -> length bound = n -> length mult = n -> (forall k, (k < n)%nat -> 0 < mult.[k]) -> (k < n)%nat ->
  let r := (fst (safe_slack o m slack bound mult)).[k] in
  slack.[k] <= r /\ (0 < slack_move o -> 0 < r) /\
  r - Rmax slack.[k] 0 <= slack_move o * Rmax 1 (Rabs bound.[k]).
Proof.
  intros Ho Hm Hs Hb Hz Hz' Hk r. destruct (C61_safe_slack o m slack bound mult n Ho Hm Hs Hb Hz Hz') as (P0 & _ & A & B & _).
  pose proof (ok_move _ Ho) as Hmv. pose proof (Rmax_l 1 (Rabs bound.[k])) as H1.
  assert (C0 : 0 <= slack_move o * Rmax 1 (Rabs bound.[k])) by (apply Rmult_le_pos; lra).
  pose proof (Rmax_l slack.[k] 0) as M1. pose proof (Rmax_r slack.[k] 0) as M2.
  destruct (Rlt_dec slack.[k] (smin o m)) as [Hl|Hl].
  - pose proof (B k Hk Hl) as E0. fold r in E0. pose proof (Rmax_r (m / mult.[k]) (smin o m)) as M3. split; [|split].
    + rewrite E0. apply Rmin_glb; lra.
    + intros Hp. assert (0 < slack_move o * Rmax 1 (Rabs bound.[k])) by (apply Rmult_lt_0_compat; lra). rewrite E0. apply Rmin_glb_lt; lra.
    + pose proof (Rmin_r (Rmax (m / mult.[k]) (smin o m)) (Rmax (slack.[k]) 0 + slack_move o * Rmax 1 (Rabs bound.[k]))). lra.
  - pose proof (A k Hk (Rnot_lt_le _ _ Hl)) as E0. fold r in E0. rewrite E0. split; [lra|]. split; [intros _; lra|].
    rewrite Rmax_left by lra. lra.
Qed.
(** the number of corrections is lost when the slack is asked for a second time *)
Theorem C61_second_question_resets_count P o safe fixmu B0 mu0 s b : nlp_ok P -> opts_ok o -> reach P o safe fixmu B0 mu0 s ->
  let s1 := ask P o (Q_slack true b) s in
  nadj (ask P o (Q_slack true b) s1) b = 0%Z /\ ansV (cq_slack P o true b) s1 = ansV (cq_slack P o true b) s.
Proof.
  intros HP Ho HR s1. destruct (C57_asking_changes_nothing P o safe fixmu B0 mu0 s (Q_slack true b) HP Ho HR Logic.I) as (_ & Hc & _).
  fold s1 in Hc. set (k := ([prim b (trial s)], @nil R)).
  assert (H : exists comp, cq_slack P o true b s = qv (VC_slack true b) (Some (VC_slack false b)) k comp (set_nadj s b 0)) by (eexists; reflexivity).
  destruct H as [comp Hr].
  assert (H2 : exists comp', cq_slack P o true b s1 = qv (VC_slack true b) (Some (VC_slack false b)) k comp' (set_nadj s1 b 0)).
  { subst k. rewrite <- Hc. eexists. reflexivity. }
  destruct H2 as [comp' H2].
  assert (H3 : cq_slack P o true b s1 = (fst (cq_slack P o true b s), set_nadj s1 b 0)).
  { rewrite H2. apply qv_hit. change (look (vca s1 (VC_slack true b)) k = Some (fst (cq_slack P o true b s))). unfold s1. cbn [ask]. unfold after. rewrite Hr. apply qv_again. cbn. lia. }
  split.
  - cbn [ask]. unfold after. rewrite H3. cbn [snd set_nadj nadj]. destruct b; reflexivity.
  - unfold ansV at 1. rewrite H3. reflexivity.
Qed.

(** * The hypotheses are met by histories in which something happens: the problem exD (an inequality with a lower
    bound, the slack variable in the interior), with a search direction, a changed barrier parameter and a new trial point *)
Example C57_nonvacuous : exists s, nlp_ok exD /\ opts_ok exO /\ reach exD exO true false (exB (-1)) 1 s /\
  mu s = 1/2 /\ i_x (trial s) <> i_x (curr s) /\ has s (i_x (delta s)) (n_x exD) /\ has s (i_s (delta s)) (n_s exD) /\
  has s 1 (nb exD XL) /\ has s 1 (nb exD XU) /\ has s 2 (nb exD SL) /\ has s 1 (nb exD SU) /\ mufree exD false /\
  (forall b k, (k < nb exD b)%nat -> 0 < mul b (E s false) k).
Proof.
  set (s1 := set_store exSD (store exSD ++ [[2]])).
  assert (R1 : reach exD exO true false (exB (-1)) 1 s1) by (eapply reach_step; [apply reach_start; exact (exD_start true)|apply S_new]).
  set (i := It 3 0 1 0 1 1 2 1).
  assert (Hi : iter_ok exD exO true (exB (-1)) s1 i).
  { split; [repeat constructor|]. split; [repeat split; reflexivity|]. intros _ b k Hk. destruct b; cbn in Hk; try lia. destruct k; [|lia]. unfold sl. cbn. lra. }
  eexists. split; [exact exD_ok|]. split; [exact exO_ok|]. split.
  { eapply reach_step; [eapply reach_step; [exact R1|apply (S_trial _ _ _ _ _ _ i Hi)]|apply (S_mu _ _ _ _ _ _ (1/2)); reflexivity]. }
  cbn. split; [reflexivity|]. split; [discriminate|].
  repeat (split; [split; [cbn; lia|reflexivity]|]). split; [left; reflexivity|]. intros [] k Hk; cbn in Hk; try lia. destruct k; [|lia]. cbn. lra.
Qed.
Print Assumptions C57_function_values.
Print Assumptions C57_derivatives.
Print Assumptions C57_primal_infeasibility.
Print Assumptions C57_original_bounds.
Print Assumptions C57_asking_changes_nothing.
Print Assumptions C58_lagrangian_gradient.
Print Assumptions C58_dual_infeasibility.
Print Assumptions C58_new_mu_old_gradient.
Print Assumptions C58_mu_dependent_objective_refuted.
Print Assumptions C59_slacks_and_barrier.
Print Assumptions C59_complementarity.
Print Assumptions C59_constraint_violation.
Print Assumptions C59_error_measures.
Print Assumptions C59_new_bounds_old_violation.
Print Assumptions C59_adjusted_bounds_violation_refuted.
Print Assumptions C59_barrier_gradient_x.
Print Assumptions C59_barrier_gradient_s.
Print Assumptions C60_primal_step.
Print Assumptions C60_dual_step.
Print Assumptions C60_slack_step.
Print Assumptions C60_step_stays_inside.
Print Assumptions C61_safe_slack.
Print Assumptions C61_safe_slack_bounds.
Print Assumptions C61_second_question_resets_count.
