(** The quality function. *)
From Coq Require Import Reals List Arith Bool Lra Lia.
From Verif Require Import CQModel CQSpec CQVec CQFuns PdModel PdSpec PdAlg PdProofs PdLoop PdSearch QfModel QfSpec QfProofs.
From Verif Require AmuModel.
Import ListNotations.
Open Scope R_scope.
Local Notation "v .[ i ]" := (nth i v 0) (at level 1, format "v .[ i ]").

(** * the combined step *)
Section Comb.
Variables (P : nlp) (aff cen : iv) (sg : R).
Hypotheses (Ha : iv_dims P aff) (Hc : iv_dims P cen).
Notation cmb := (combine sg aff cen).
Lemma addc u w n : length u = n -> length w = n -> vec_is (add_two sg u 1 w 0 w) n (fun j => sg * u.[j] + w.[j]).
Proof. intros H1 H2. eapply vis_ext; [apply add_two_is; apply vis_self; eassumption|]. intros j _. cbv beta. ring. Qed.
Lemma cmb_is : vec_is (vx cmb) (n_x P) (fun j => sg * (vx cen).[j] + (vx aff).[j]) /\ vec_is (vs cmb) (n_s P) (fun j => sg * (vs cen).[j] + (vs aff).[j]) /\
  vec_is (vyc cmb) (n_c P) (fun j => sg * (vyc cen).[j] + (vyc aff).[j]) /\ vec_is (vyd cmb) (n_s P) (fun j => sg * (vyd cen).[j] + (vyd aff).[j]) /\
  forall b, vec_is (dz cmb b) (nb P b) (fun j => sg * (dz cen b).[j] + (dz aff b).[j]).
Proof.
  destruct Ha as (A1 & A2 & A3 & A4 & A5 & A6 & A7 & A8). destruct Hc as (C1 & C2 & C3 & C4 & C5 & C6 & C7 & C8).
  unfold combine, ivmap2. cbn [vx vs vyc vyd]. splits; try (apply addc; assumption).
  intros b. destruct b; cbn [dz vzL vzU vvL vvU]; apply addc; assumption.
Qed.
Lemma cmb_dims : iv_dims P cmb.
Proof.
  destruct cmb_is as (E1 & E2 & E3 & E4 & E5). unfold iv_dims. splits; [apply E1|apply E2|apply E3|apply E4|apply (E5 XL)|apply (E5 XU)|apply (E5 SL)|apply (E5 SU)].
Qed.
Lemma cmb_dsl b k : nlp_ok P -> (k < nb P b)%nat ->
  dsl P b (vx cmb) (vs cmb) k = sg * dsl P b (vx cen) (vs cen) k + dsl P b (vx aff) (vs aff) k.
Proof.
  intros HP Hk. pose proof (posb P HP b k Hk) as Hp. destruct cmb_is as (E1 & E2 & _). unfold dsl. destruct b; cbn [pos] in *;
    [rewrite (proj2 E1) by exact Hp|rewrite (proj2 E1) by exact Hp|rewrite (proj2 E2) by exact Hp|rewrite (proj2 E2) by exact Hp]; ring.
Qed.
Lemma qf_step_slack b : nlp_ok P -> vec_is (qf_step (slack_step P) aff cen sg b) (nb P b) (dsl P b (vx cmb) (vs cmb)).
Proof.
  intros HP. unfold qf_step. eapply vis_ext; [apply add_two_is; apply slack_step_is; assumption|].
  intros k Hk. rewrite cmb_dsl by assumption. ring.
Qed.
Lemma qf_step_mult b : vec_is (qf_step zpart aff cen sg b) (nb P b) (fun k => (dz cmb b).[k]).
Proof.
  unfold qf_step. rewrite !zpart_dz. eapply vis_ext; [apply add_two_is; apply vis_self; apply dz_len; assumption|].
  intros k Hk. destruct cmb_is as (_ & _ & _ & _ & E5). rewrite (proj2 (E5 b)) by exact Hk. cbv beta. ring.
Qed.
End Comb.

Section Qf.
Variables (P : nlp) (o : opts) (B : bd -> vec) (m tau : R) (e : env) (i : oin) (aff cen : iv) (sg : R).
Hypotheses (HP : nlp_ok P) (HD : dims_ok P e) (HA : asked_at P o B m tau e i) (HPos : positive P B e) (Ht : 0 <= tau <= 1).
Hypotheses (Ha : iv_dims P aff) (Hc : iv_dims P cen).
Notation cmb := (combine sg aff cen).
Notation ap := (qf_alpha_primal P i aff cen sg).
Notation ad := (qf_alpha_dual i aff cen sg).

Lemma alpha_p : pftb P B tau e (vx cmb) (vs cmb) ap.
Proof.
  unfold qf_alpha_primal. rewrite (a_tau _ _ _ _ _ _ _ HA). apply (frac4_slack P o B m tau e i HA HPos); [lra|]. intros b. apply qf_step_slack; assumption.
Qed.
Lemma dftb_ext d d' r : (forall b k, (k < nb P b)%nat -> (d b).[k] = (d' b).[k]) -> dftb P tau e d r -> dftb P tau e d' r.
Proof.
  intros H (H0 & H1 & H2). split; [exact H0|]. split.
  - intros n q dq k Hin Hk. apply in_map_iff in Hin. destruct Hin as (b & E & Hb). injection E as <- <- <-. rewrite <- H by exact Hk.
    apply (H1 (nb P b) (mul b e) (fun k => (d b).[k]) k); [|exact Hk]. apply (in_map (fun b => (nb P b, mul b e, fun k => (d b).[k]))). exact Hb.
  - intros a Ha' Hok. apply H2; [exact Ha'|]. intros n q dq k Hin Hk. apply in_map_iff in Hin. destruct Hin as (b & E & Hb). injection E as <- <- <-. rewrite H by exact Hk.
    apply (Hok (nb P b) (mul b e) (fun k => (d' b).[k]) k); [|exact Hk]. apply (in_map (fun b => (nb P b, mul b e, fun k => (d' b).[k]))). exact Hb.
Qed.
Lemma alpha_d : dftb P tau e (dz cmb) ad.
Proof.
  unfold qf_alpha_dual. rewrite (a_tau _ _ _ _ _ _ _ HA). eapply dftb_ext; [|apply (frac4_dual P o B m tau e i HA HPos); [lra|]].
  - intros b k Hk. apply (proj2 (qf_step_mult P aff cen sg Ha Hc b) k Hk).
  - intros b. apply (qf_step_mult P aff cen sg Ha Hc b).
Qed.
Lemma compl_at b : vec_is (qf_compl P i aff cen sg b) (nb P b)
  (fun k => sl P B b (moved ap ad e cmb) k * mul b (moved ap ad e cmb) k).
Proof.
  unfold qf_compl. eapply vis_ext; [apply emul_is; (apply add_two_is; [|apply qf_step_slack || apply qf_step_mult|])|].
  all: try eassumption. all: try apply (a_sl _ _ _ _ _ _ _ HA). all: try apply (a_mul _ _ _ _ _ _ _ HA).
  intros k Hk. cbv beta. rewrite (sl_moved P B e HP HD), (mul_moved P e HD) by exact Hk. ring.
Qed.
Lemma ndual_is : n_dual i = (n_x P + n_s P)%nat.
Proof. unfold n_dual. rewrite (vis_len _ _ _ (a_gx _ _ _ _ _ _ _ HA)), (vis_len _ _ _ (a_gs _ _ _ _ _ _ _ HA)). reflexivity. Qed.
Lemma npri_is : n_pri i = (n_c P + n_s P)%nat.
Proof. unfold n_pri. rewrite (vis_len _ _ _ (a_c _ _ _ _ _ _ _ HA)), (vis_len _ _ _ (a_dms _ _ _ _ _ _ _ HA)). reflexivity. Qed.
Lemma ncompl_is : n_comp i = ntot P.
Proof. unfold n_comp, ntot. rewrite !(vis_len _ _ _ (a_mul _ _ _ _ _ _ _ HA _)). reflexivity. Qed.

Lemma pow2 x : x ^ 2 = x * x. Proof. ring. Qed.
Lemma norm_dual k fs : Forall2 (fun f g : fam => fst f = fst g /\ forall j, (j < fst f)%nat -> snd g j = (1 - ad) * snd f j) (dual_fams P m e) fs ->
  measure k (n_x P + n_s P) fs (qf_norm_dual i k ad (n_dual i)).
Proof.
  intros F. pose proof (proj1 alpha_d) as R1. rewrite ndual_is.
  assert (G : forall t, norm_is t fs ((1 - ad) * calc_norm2 t (i_gx i) (i_gs i))).
  { intros t. eapply norm_scal; [lra|exact F|]. apply norm2_is; [apply (a_gx _ _ _ _ _ _ _ HA)|apply (a_gs _ _ _ _ _ _ _ HA)]. }
  assert (Z : (n_x P + n_s P)%nat = O -> forall t r, norm_is t fs r -> r = 0).
  { intros Z t r. apply norm_none. intros f Hf. inversion F as [|? ? ? ? [E1 _] F1]; subst. inversion F1 as [|? ? ? ? [E2 _] F2]; subst. inversion F2; subst. cbn in *.
    destruct Hf as [<-|[<-|[]]]; lia. }
  unfold measure, qf_norm_dual. destruct k; cbv zeta.
  - eexists. split; [exact (G N1)|]. cbn [calc_norm2]. destruct (Nat.eqb_spec (n_x P + n_s P) 0) as [N|N]; [|reflexivity].
    pose proof (Z N _ _ (G N1)) as E. cbn [calc_norm2] in E. rewrite E. unfold Rdiv. ring.
  - eexists. split; [exact (G N2)|]. cbn [calc_norm2]. rewrite !pow2.
    replace (1 - ad) with (1 - ad) by ring.
    assert (S0 : 0 <= nrm2 (i_gx i) * nrm2 (i_gx i) + nrm2 (i_gs i) * nrm2 (i_gs i)) by nra.
    pose proof (sqrt_sqrt _ S0) as S1. set (s := sqrt _) in *.
    replace ((1 - ad) * (1 - ad) * (nrm2 (i_gx i) * nrm2 (i_gx i) + nrm2 (i_gs i) * nrm2 (i_gs i))) with ((1 - ad) * s * ((1 - ad) * s)) by (rewrite <- S1; ring).
    destruct (Nat.eqb_spec (n_x P + n_s P) 0) as [N|N]; [|reflexivity].
    pose proof (Z N _ _ (G N2)) as E. cbn [calc_norm2] in E. fold s in E. rewrite E. unfold Rdiv. ring.
  - exact (G NMax).
  - eexists. split; [exact (G N2)|]. cbn [calc_norm2]. rewrite !pow2. destruct (Nat.eqb_spec (n_x P + n_s P) 0) as [N|N]; [|reflexivity].
    pose proof (Z N _ _ (G N2)) as E. cbn [calc_norm2] in E. rewrite E. unfold Rdiv. ring.
Qed.
Lemma norm_primal k fs : Forall2 (fun f g : fam => fst f = fst g /\ forall j, (j < fst f)%nat -> snd g j = (1 - ap) * snd f j) (primal_fams P e) fs ->
  measure k (n_c P + n_s P) fs (qf_norm_primal i k ap (n_pri i)).
Proof.
  intros F. pose proof (proj1 alpha_p) as R1. rewrite npri_is.
  assert (G : forall t, norm_is t fs ((1 - ap) * calc_norm2 t (i_c i) (i_dms i))).
  { intros t. eapply norm_scal; [lra|exact F|]. apply norm2_is; [apply (a_c _ _ _ _ _ _ _ HA)|apply (a_dms _ _ _ _ _ _ _ HA)]. }
  assert (D : forall r den : R, (if Nat.ltb 0 (n_c P + n_s P) then r / den else r) = r / (if Nat.eqb (n_c P + n_s P) 0 then 1 else den)).
  { intros r den. destruct (n_c P + n_s P)%nat; cbn [Nat.ltb Nat.leb Nat.eqb]; [unfold Rdiv; rewrite Rinv_1; ring|reflexivity]. }
  unfold measure, qf_norm_primal. destruct k; cbv zeta.
  - eexists. split; [exact (G N1)|]. cbn [calc_norm2]. apply D.
  - eexists. split; [exact (G N2)|]. cbn [calc_norm2]. rewrite D, !pow2. f_equal.
    assert (S0 : 0 <= nrm2 (i_c i) * nrm2 (i_c i) + nrm2 (i_dms i) * nrm2 (i_dms i)) by nra.
    pose proof (sqrt_sqrt _ S0) as S1. set (s := sqrt _) in *. rewrite <- S1. ring.
  - exact (G NMax).
  - eexists. split; [exact (G N2)|]. cbn [calc_norm2]. rewrite D, !pow2. f_equal. destruct (n_c P + n_s P)%nat; cbn [Nat.eqb]; [rewrite sqrt_1|]; reflexivity.
Qed.
Lemma norm_compl k : measure k (ntot P) (compl_fams P B (moved ap ad e cmb)) (qf_norm_compl k (qf_compl P i aff cen sg) (n_comp i)).
Proof.
  set (c := qf_compl P i aff cen sg). rewrite ncompl_is.
  assert (G : forall t, norm_is t (compl_fams P B (moved ap ad e cmb)) (calc_norm t [c XL; c XU; c SL; c SU])).
  { intros t. apply norml_is. unfold compl_fams, all_b. cbn [map]. repeat constructor; apply compl_at. }
  assert (Z : (ntot P)%nat = O -> forall t r, norm_is t (compl_fams P B (moved ap ad e cmb)) r -> r = 0).
  { intros Z t r. apply norm_none. unfold ntot in Z. intros f Hf. destruct Hf as [<-|[<-|[<-|[<-|[]]]]]; cbn [fst]; lia. }
  assert (Q : sqrt (nrm2 (c XL) ^ 2 + nrm2 (c XU) ^ 2 + nrm2 (c SL) ^ 2 + nrm2 (c SU) ^ 2) = calc_norm N2 [c XL; c XU; c SL; c SU]).
  { cbn [calc_norm fold_left]. rewrite !pow2, Rplus_0_l. reflexivity. }
  unfold measure, qf_norm_compl. destruct k; cbv zeta.
  - eexists. split; [exact (G N1)|]. cbn [calc_norm fold_left]. rewrite Rplus_0_l. destruct (Nat.eqb_spec (ntot P) 0) as [N|N]; [|reflexivity].
    pose proof (Z N _ _ (G N1)) as E. cbn [calc_norm fold_left] in E. rewrite Rplus_0_l in E. rewrite E. unfold Rdiv. ring.
  - eexists. split; [exact (G N2)|].
    assert (S0 : 0 <= nrm2 (c XL) ^ 2 + nrm2 (c XU) ^ 2 + nrm2 (c SL) ^ 2 + nrm2 (c SU) ^ 2) by nra.
    pose proof (sqrt_sqrt _ S0) as S1. rewrite Q in S1. rewrite S1. destruct (Nat.eqb_spec (ntot P) 0) as [N|N]; [|reflexivity].
    pose proof (Z N _ _ (G N2)) as E. rewrite E in S1. rewrite <- S1. unfold Rdiv. ring.
  - pose proof (G NMax) as GM. cbn [calc_norm fold_left] in GM.
    replace (Rmax 0 (amax (c XL))) with (amax (c XL)) in GM; [exact GM|]. symmetry. apply Rmax_right. apply (amax_is _ _ _ (compl_at XL)).
  - eexists. split; [exact (G N2)|]. rewrite Q. destruct (Nat.eqb_spec (ntot P) 0) as [N|N]; [|reflexivity].
    pose proof (Z N _ _ (G N2)) as E. rewrite E. unfold Rdiv. ring.
Qed.
Lemma value_is k ce bal fd fp :
  Forall2 (fun f g : fam => fst f = fst g /\ forall j, (j < fst f)%nat -> snd g j = (1 - ad) * snd f j) (dual_fams P m e) fd ->
  Forall2 (fun f g : fam => fst f = fst g /\ forall j, (j < fst f)%nat -> snd g j = (1 - ap) * snd f j) (primal_fams P e) fp ->
  exists d p c xi, measure k (n_x P + n_s P) fd d /\ measure k (n_c P + n_s P) fp p /\
    measure k (ntot P) (compl_fams P B (moved ap ad e cmb)) c /\
    centr P B (moved ap ad e cmb) xi /\ qf_value P i k ce bal aff cen sg = quality_of ce bal d p c xi.
Proof.
  intros Fd Fp. eexists _, _, _, _. split; [apply norm_dual; exact Fd|]. split; [apply norm_primal; exact Fp|]. split; [apply norm_compl|].
  split; [apply (centr_is P B (moved ap ad e cmb) (qf_compl P i aff cen sg XL) (qf_compl P i aff cen sg XU) (qf_compl P i aff cen sg SL) (qf_compl P i aff cen sg SU)); apply compl_at|].
  unfold qf_value, quality_of. set (d := qf_norm_dual _ _ _ _). set (p := qf_norm_primal _ _ _ _). set (c := qf_norm_compl _ _ _). set (xi := calc_centrality _ _ _ _).
  assert (C3 : forall x, x ^ 3 = x * x * x) by (intros; ring).
  destruct ce, bal; rewrite ?C3; fold xi; unfold Rdiv, Rminus; try ring.
Qed.
End Qf.
