(** C82: the probing (Mehrotra) oracle. C83: the quality function. *)
From Coq Require Import Reals List Arith Bool Lra Lia.
From Verif Require Import CQModel CQSpec CQVec CQFuns CQProps PdModel PdSpec PdAlg PdProofs PdLoop PdSearch PdProps QfModel QfSpec QfProofs QfProofs2 QfProofs3.
From Verif Require AmuModel AmuProps2.
Import ListNotations.
Open Scope R_scope.
Local Notation "v .[ i ]" := (nth i v 0) (at level 1, format "v .[ i ]").

Section Thms.
Variables (P : nlp) (o : opts) (B : bd -> vec) (m tau : R) (e : env) (i : oin) (m1 : R) (W : mat) (Y : psys) (q : cqv) (d : deltas).
Hypotheses (HP : nlp_ok P) (Ho : opts_ok o) (HD : dims_ok P e) (HI : interior P o B e) (T : at_point P o B m1 e W Y q)
  (HA : asked_at P o B m tau e i) (Hmu : dep_mu P = false).

(** * C82 *)
(** The step of the probing oracle, and delta_aff of the quality function oracle, is the Newton step for the barrier parameter zero. *)
Theorem C82_affine_step sv smax mumin mumax step mu : solver_ok P Y d sv ->
  probing P i sv smax mumin mumax = Some (step, mu) ->
  newton_step P o B 0 e W d (fun _ _ => 0) step.
Proof.
  intros HS E. unfold probing in E. destruct (sv 0%nat (-1) (rhs_aff i)) as [v|] eqn:E1; [|discriminate].
  assert (v = step) by congruence. subst v.
  exact (aff_step P o B m tau e i m1 W Y q d HP Ho HD HI T HA Hmu sv step HS E1).
Qed.
(** with the linear solver of the algorithm *)
Theorem C82_affine_step_solver {H A} (ho : hops H) (ao : augops A) po fuel fr fo res0 inexact s step s' :
  handler_ok ho -> popts_ok po -> solver_exact (n_x P) (n_s P) (n_c P) ao Y -> iv_ok (n_x P) (n_s P) (n_c P) Y res0 ->
  solve ho ao po fuel fr fo Y (-1) 0 (rhs_aff i) res0 inexact false s = (R_true step, s') ->
  newton_step P o B 0 e W (h_cur ho (p_h s')) (fun _ _ => 0) step.
Proof.
  intros Hh OO SE Hr E. pose proof (at_point_sys P o B m1 e W Y q HP Ho HD HI T) as K.
  pose proof (iv_is_ok _ _ _ _ _ _ (rhs_aff_is P o B m tau e i m1 W Y q T HA)) as R1.
  destruct (C64_exact_solver ho ao po (n_x P) (n_s P) (n_c P) Y fuel fr fo (-1) 0 _ res0 inexact s step s' Hh OO K SE R1 Hr ltac:(lra) E) as (w & _ & S1 & L & _).
  refine (aff_step0 P o B m tau e i m1 W Y q (h_cur ho (p_h s')) HP Ho HD HI T HA Hmu w step S1 _).
  eapply iv_is_ext; [exact L|..]; intros j _; unfold lin2; cbn [w_x w_s w_c w_d w_zL w_zU w_vL w_vU]; ring.
Qed.
Theorem C82_fails sv smax mumin mumax : probing P i sv smax mumin mumax = None <-> sv 0%nat (-1) (rhs_aff i) = None.
Proof. unfold probing. destruct (sv 0%nat (-1) (rhs_aff i)); split; congruence. Qed.

Lemma ratio3_mul a b : 0 < a -> (b / a) ^ 3 * a = b * (b / a) * (b / a).
Proof. intros. field. lra. Qed.
(** Its barrier parameter, from the complementarity of the point the largest admissible step leads to. *)
Theorem C82_mu sv smax mumin mumax step mu : solver_ok P Y d sv -> positive P B e -> (0 < ntot P)%nat ->
  probing P i sv smax mumin mumax = Some (step, mu) ->
  exists ap ad, pftb P B 1 e (vx step) (vs step) ap /\ dftb P 1 e (dz step) ad /\
    let e' := moved ap ad e step in
    (forall b k, (k < nb P b)%nat -> 0 <= sl P B b e' k /\ 0 <= mul b e' k) /\
    0 <= avrg P B e' /\ 0 < avrg P B e /\
    mu = Rmax mumin (Rmin mumax (avrg P B e * Rmin smax ((avrg P B e' / avrg P B e) * (avrg P B e' / avrg P B e) * (avrg P B e' / avrg P B e)))) /\
    (mumin <= mumax -> mumin <= mu <= mumax) /\ mu <= Rmax mumin (smax * avrg P B e).
Proof.
  intros HS HPos HN E. pose proof (C82_affine_step _ _ _ _ _ _ HS E) as N.
  assert (Hv : iv_dims P step) by (exact (proj1 N)).
  unfold probing in E. destruct (sv 0%nat (-1) (rhs_aff i)) as [v|] eqn:E1; [|discriminate].
  assert (v = step /\ probing_mu P i smax mumin mumax v = mu) as [-> Em] by (split; congruence).
  unfold probing_mu in Em. set (ap := primal_frac P i 1 (vx step) (vs step)) in *. set (ad := frac4 (i_mul i) (fun b => zpart b step) 1) in *.
  assert (H1 : pftb P B 1 e (vx step) (vs step) ap).
  { apply (primal_frac_is P o B m tau e i HP HA HPos); [lra|apply Hv|apply Hv]. }
  assert (H2 : dftb P 1 e (dz step) ad).
  { apply (frac4_dual P o B m tau e i HA HPos); [lra|]. destruct Hv as (_ & _ & _ & _ & V5 & V6 & V7 & V8). intros []; cbn [dz]; assumption. }
  assert (NN : forall b k, (k < nb P b)%nat -> 0 <= sl P B b (moved ap ad e step) k /\ 0 <= mul b (moved ap ad e step) k).
  { intros b k Hk. destruct (moved_nonneg P B e HP HD 1 step ap ad ltac:(lra) H1 H2 b k Hk) as [A1 A2]. split; lra. }
  assert (AP : 0 < avrg P B e) by (apply avrg_pos; assumption).
  exists ap, ad. split; [exact H1|]. split; [exact H2|]. cbv zeta. split; [exact NN|]. split; [apply avrg_nonneg; exact NN|]. split; [exact AP|].
  rewrite (affine_mu_is P o B m tau e i HP HD HA ap ad step Hv), (a_avrg _ _ _ _ _ _ _ HA) in Em.
  set (r := avrg P B (moved ap ad e step) / avrg P B e) in *.
  assert (Em' : mu = Rmax mumin (Rmin mumax (avrg P B e * Rmin smax (r * r * r)))).
  { rewrite <- Em. rewrite Rmax_comm, Rmin_comm. f_equal. f_equal. rewrite (Rmin_comm smax). replace (r ^ 3) with (r * r * r) by ring. ring. }
  split; [exact Em'|]. split.
  - intros L. rewrite Em'. split; [apply Rmax_l|]. apply Rmax_lub; [exact L|apply Rmin_l].
  - rewrite Em'. apply Rmax_lub; [apply Rmax_l|]. eapply Rle_trans; [apply Rmin_r|]. eapply Rle_trans; [|apply Rmax_r].
    rewrite (Rmult_comm smax). apply Rmult_le_compat_l; [lra|apply Rmin_l].
Qed.
(** With equal step lengths the average complementarity it predicts is (1-alpha) times the current one, up to the second order
    term; when the full step is admissible and the second order terms cancel, the answer is mu_min. *)
Theorem C82_equal_steps sv smax mumin mumax step mu al : solver_ok P Y d sv -> (0 < ntot P)%nat ->
  probing P i sv smax mumin mumax = Some (step, mu) ->
  avrg P B (moved al al e step) = (1 - al) * avrg P B e + al * al * (cross P step / INR (ntot P)).
Proof.
  intros HS HN E. pose proof (C82_affine_step _ _ _ _ _ _ HS E) as N.
  rewrite (avrg_moved P o B e HP HD W d 0 step al N HN). ring.
Qed.
Theorem C82_full_step sv smax mumin mumax step mu : solver_ok P Y d sv -> positive P B e -> (0 < ntot P)%nat -> 0 <= smax -> 0 <= mumin ->
  probing P i sv smax mumin mumax = Some (step, mu) ->
  pftb P B 1 e (vx step) (vs step) 1 -> dftb P 1 e (dz step) 1 -> cross P step = 0 -> mu = mumin.
Proof.
  intros HS HPos HN S0 M0 E F1 F2 C0. destruct (C82_mu _ _ _ _ _ _ HS HPos HN E) as (ap & ad & A1 & A2 & _ & _ & AP & Em & _).
  assert (U : forall fs a b, ftb 1 fs a -> ftb 1 fs b -> a = b).
  { intros fs a b (Ra & Oa & Ma) (Rb & Ob & Mb). apply Rle_antisym; [apply Mb; assumption|apply Ma; assumption]. }
  assert (ap = 1) by (eapply U; [exact A1|exact F1]). assert (ad = 1) by (eapply U; [exact A2|exact F2]). subst ap ad.
  rewrite (C82_equal_steps _ _ _ _ _ _ 1 HS HN E), C0 in Em.
  replace ((1 - 1) * avrg P B e + 1 * 1 * (0 / INR (ntot P))) with 0 in Em by (field; apply not_0_INR; lia).
  replace (0 / avrg P B e * (0 / avrg P B e) * (0 / avrg P B e)) with 0 in Em by (field; lra).
  rewrite (Rmin_right smax 0) in Em by lra. rewrite Rmult_0_r in Em. rewrite Em. apply Rmax_left.
  eapply Rle_trans; [apply Rmin_r|exact M0].
Qed.

(** * C83 *)
(** What the quality function oracle leaves behind: the affine step, and in delta the Newton step for the mu it returns. *)
Theorem C83_steps sv k ce bal n smin smax stol qtol mumin mumax aff delta mu : solver_ok P Y d sv ->
  quality P i sv k ce bal n smin smax stol qtol mumin mumax = Some (aff, delta, mu) ->
  newton_step P o B 0 e W d (fun _ _ => 0) aff /\ newton_step P o B mu e W d (fun _ _ => 0) delta.
Proof.
  intros HS E. unfold quality in E. destruct (sv 0%nat (-1) (rhs_aff i)) as [a|] eqn:E1; [|discriminate].
  destruct (sv 1%nat 1 (rhs_cen i)) as [c|] eqn:E2; [|discriminate]. rewrite (a_avrg _ _ _ _ _ _ _ HA) in E.
  set (sg := fst (AmuModel.qf_sigma _ _ _ _ _ _ _ _ _)) in E.
  assert (a = aff /\ combine sg a c = delta /\ sg * avrg P B e = mu) as (-> & <- & <-) by (repeat split; congruence).
  split; [exact (aff_step P o B m tau e i m1 W Y q d HP Ho HD HI T HA Hmu sv aff HS E1)|].
  apply (comb_step P o B m tau e i m1 W Y q d HP Ho HD HI T HA Hmu sv aff c sg HS E1 E2).
Qed.
Theorem C83_fails sv k ce bal n smin smax stol qtol mumin mumax :
  quality P i sv k ce bal n smin smax stol qtol mumin mumax = None <-> sv 0%nat (-1) (rhs_aff i) = None \/ sv 1%nat 1 (rhs_cen i) = None.
Proof. unfold quality. destruct (sv 0%nat (-1) (rhs_aff i)), (sv 1%nat 1 (rhs_cen i)); split; intros H; try discriminate; try (destruct H; discriminate); auto. Qed.

(** The step lengths it tries are the largest ones that keep slacks and multipliers at (1-tau) of their values. *)
Theorem C83_step_lengths sv aff cen sg : solver_ok P Y d sv -> positive P B e -> 0 <= tau <= 1 ->
  sv 0%nat (-1) (rhs_aff i) = Some aff -> sv 1%nat 1 (rhs_cen i) = Some cen ->
  newton_step P o B (sg * avrg P B e) e W d (fun _ _ => 0) (combine sg aff cen) /\
  pftb P B tau e (vx (combine sg aff cen)) (vs (combine sg aff cen)) (qf_alpha_primal P i aff cen sg) /\
  dftb P tau e (dz (combine sg aff cen)) (qf_alpha_dual i aff cen sg).
Proof.
  intros HS HPos Ht E1 E2.
  destruct (comb_step P o B m tau e i m1 W Y q d HP Ho HD HI T HA Hmu sv aff cen sg HS E1 E2) as [Dc N].
  pose proof (proj1 (aff_step P o B m tau e i m1 W Y q d HP Ho HD HI T HA Hmu sv aff HS E1)) as Da.
  split; [exact N|]. split; [exact (alpha_p P o B m tau e i aff cen sg HP HA HPos Ht Da Dc)|exact (alpha_d P o B m tau e i aff cen sg HA HPos Ht Da Dc)].
Qed.
End Thms.

(** Without perturbation of the system and damping, the quality function is the quality of the step: linearised dual and primal
    infeasibility, and the exact complementarity and centrality of the point the step leads to. *)
Section Quality.
Variables (P : nlp) (o : opts) (B : bd -> vec) (m tau : R) (e : env) (i : oin) (m1 : R) (W : mat) (Y : psys) (q : cqv).
Hypotheses (HP : nlp_ok P) (Ho : opts_ok o) (HD : dims_ok P e) (HI : interior P o B e) (T : at_point P o B m1 e W Y q)
  (HA : asked_at P o B m tau e i) (Hmu : dep_mu P = false) (Hk : kappa_d o = 0) (HPos : positive P B e) (Ht : 0 <= tau <= 1).
Theorem C83_quality sv k ce bal aff cen sg : solver_ok P Y (Dl 0 0 0 0) sv ->
  sv 0%nat (-1) (rhs_aff i) = Some aff -> sv 1%nat 1 (rhs_cen i) = Some cen ->
  let v := combine sg aff cen in
  newton_step P o B (sg * avrg P B e) e W (Dl 0 0 0 0) (fun _ _ => 0) v /\
  exists ap ad, pftb P B tau e (vx v) (vs v) ap /\ dftb P tau e (dz v) ad /\
    exists du pr co xi, measure k (n_x P + n_s P) (lin_dual P W m ad e v) du /\ measure k (n_c P + n_s P) (lin_primal P ap e v) pr /\
      measure k (ntot P) (compl_fams P B (moved ap ad e v)) co /\ centr P B (moved ap ad e v) xi /\
      qf_value P i k ce bal aff cen sg = quality_of ce bal du pr co xi.
Proof.
  intros HS E1 E2 v.
  destruct (C83_step_lengths P o B m tau e i m1 W Y q (Dl 0 0 0 0) HP Ho HD HI T HA Hmu sv aff cen sg HS HPos Ht E1 E2) as (N & Ap & Ad).
  destruct (comb_step P o B m tau e i m1 W Y q _ HP Ho HD HI T HA Hmu sv aff cen sg HS E1 E2) as [Dc _].
  pose proof (proj1 (aff_step P o B m tau e i m1 W Y q _ HP Ho HD HI T HA Hmu sv aff HS E1)) as Da.
  split; [exact N|]. exists (qf_alpha_primal P i aff cen sg), (qf_alpha_dual i aff cen sg). split; [exact Ap|]. split; [exact Ad|].
  exact (value_is P o B m tau e i aff cen sg HP HD HA HPos Ht Da Dc k ce bal _ _
    (lin_dual_scaled P o B e W m _ _ Hmu Hk N _) (lin_primal_scaled P o B e W _ _ N _)).
Qed.
(** For affine linear problems these are the errors at the point the step leads to. *)
Theorem C83_quality_affine sv k ce bal aff cen sg : solver_ok P Y (Dl 0 0 0 0) sv -> affine_nlp P -> (forall a b, ment W a b = 0) ->
  sv 0%nat (-1) (rhs_aff i) = Some aff -> sv 1%nat 1 (rhs_cen i) = Some cen ->
  let v := combine sg aff cen in
  exists ap ad, pftb P B tau e (vx v) (vs v) ap /\ dftb P tau e (dz v) ad /\ let e' := moved ap ad e v in
    exists du pr co xi, measure k (n_x P + n_s P) (dual_fams P m e') du /\ measure k (n_c P + n_s P) (primal_fams P e') pr /\
      measure k (ntot P) (compl_fams P B e') co /\ centr P B e' xi /\
      qf_value P i k ce bal aff cen sg = quality_of ce bal du pr co xi.
Proof.
  intros HS HL HW E1 E2 v. destruct (C83_quality sv k ce bal aff cen sg HS E1 E2) as (N & ap & ad & Ap & Ad & du & pr & co & xi & M1 & M2 & M3 & X & E).
  exists ap, ad. split; [exact Ap|]. split; [exact Ad|]. exists du, pr, co, xi.
  split; [eapply measure_ext; [|exact M1]; apply (moved_dual P e W m v HP HD Hmu ap ad HL (proj1 N) HW)|].
  split; [eapply measure_ext; [|exact M2]; apply (moved_primal P e v HD ap ad HL (proj1 N))|]. auto.
Qed.
End Quality.
Lemma measure_nonneg k n fs r : measure k n fs r -> 0 <= r.
Proof.
  assert (Dn : 0 < (if Nat.eqb n 0 then 1 else INR n)). { destruct (Nat.eqb_spec n 0); [lra|]. apply lt_0_INR. lia. }
  destruct k; cbn [measure]; cbv zeta.
  - intros (t & E & ->). cbn in E. apply Rmult_le_pos; [|left; apply Rinv_0_lt_compat; exact Dn]. rewrite E. clear.
    induction fs as [|f fs IH]; cbn; [lra|]. assert (0 <= sumn (fst f) (fun j => Rabs (snd f j))) by (apply sumn_nonneg; intros; apply Rabs_pos). lra.
  - intros (t & E & ->). apply Rmult_le_pos; [nra|left; apply Rinv_0_lt_compat; exact Dn].
  - intros [H [->|(f & j & Hf & Hj & ->)]]; [lra|apply Rabs_pos].
  - intros (t & E & ->). apply Rmult_le_pos; [|left; apply Rinv_0_lt_compat; apply sqrt_lt_R0; exact Dn]. cbn in E. rewrite E. apply sqrt_pos.
Qed.

Lemma fam_ge (g : R -> R) (fs : list fam) f j : (forall x, 0 <= g x) -> In f fs -> (j < fst f)%nat ->
  g (snd f j) <= fold_right Rplus 0 (map (fun f : fam => sumn (fst f) (fun a => g (snd f a))) fs).
Proof.
  intros G. induction fs as [|f0 fs IH]; [intros []|]. intros Hf Hj. cbn [map fold_right].
  assert (A : 0 <= sumn (fst f0) (fun a => g (snd f0 a))) by (apply sumn_nonneg; intros; apply G).
  assert (B : 0 <= fold_right Rplus 0 (map (fun f : fam => sumn (fst f) (fun a => g (snd f a))) fs)).
  { clear -G. induction fs as [|f1 fs IH]; cbn [map fold_right]; [lra|]. assert (0 <= sumn (fst f1) (fun a => g (snd f1 a))) by (apply sumn_nonneg; intros; apply G). lra. }
  destruct Hf as [->|Hf].
  - pose proof (sumn_ge0 (fst f) (fun a => g (snd f a)) j ltac:(intros; apply G) Hj). cbv beta in *. lra.
  - pose proof (IH Hf Hj). lra.
Qed.
Lemma measure_pos k n fs r f j : measure k n fs r -> In f fs -> (j < fst f)%nat -> snd f j <> 0 -> 0 < r.
Proof.
  intros M Hf Hj Hn. assert (Dn : 0 < (if Nat.eqb n 0 then 1 else INR n)). { destruct (Nat.eqb_spec n 0); [lra|]. apply lt_0_INR. lia. }
  assert (Di := Rinv_0_lt_compat _ Dn).
  pose proof (fam_ge Rabs fs f j Rabs_pos Hf Hj) as G1. pose proof (fam_ge (fun x => x * x) fs f j ltac:(intros; nra) Hf Hj) as G2. cbv beta in G2.
  pose proof (Rabs_pos_lt _ Hn) as Ab. assert (Sq : 0 < snd f j * snd f j) by nra.
  destruct k; cbn [measure] in M; cbv zeta in M.
  - destruct M as (t & E & ->). cbn [norm_is] in E. apply Rmult_lt_0_compat; [lra|exact Di].
  - destruct M as (t & E & ->). cbn [norm_is] in E. apply Rmult_lt_0_compat; [|exact Di]. rewrite E, sqrt_sqrt by lra. lra.
  - destruct M as [H _]. specialize (H f j Hf Hj). lra.
  - destruct M as (t & E & ->). cbn [norm_is] in E. apply Rmult_lt_0_compat; [|apply Rinv_0_lt_compat; apply sqrt_lt_R0; exact Dn]. rewrite E. apply sqrt_lt_R0. lra.
Qed.
Lemma centr_range P B e' xi : positive P B e' -> (0 < ntot P)%nat -> centr P B e' xi -> 0 < xi <= 1.
Proof.
  intros Hp HN [[H0 _]|(mn & b0 & k0 & Hk & -> & _ & ->)]; [lia|].
  destruct (Hp b0 k0 Hk) as [A1 A2]. assert (A3 : 0 < sl P B b0 e' k0 * mul b0 e' k0) by nra.
  split; [|apply Rmin_l]. apply Rmin_glb_lt; [lra|].
  assert (S0 : 0 < sumb (fun b => sumn (nb P b) (fun k => Rabs (sl P B b e' k * mul b e' k))) / INR (ntot P)).
  { pose proof (avrg_pos P B e' Hp HN) as Av. unfold avrg in Av. destruct (Nat.eqb_spec (ntot P) 0); [lia|].
    unfold sumb in *.
    assert (X : forall b, sumn (nb P b) (fun k => Rabs (sl P B b e' k * mul b e' k)) = sumn (nb P b) (fun k => mul b e' k * sl P B b e' k)).
    { intros b. apply sumn_ext. intros k Hk'. destruct (Hp b k Hk'). rewrite Rabs_pos_eq by nra. ring. }
    rewrite !X. exact Av. }
  apply Rmult_lt_0_compat; [exact A3|apply Rinv_0_lt_compat; exact S0].
Qed.
Lemma quality_pos ce bal du pr co xi : 0 <= du -> 0 <= pr -> 0 < co -> 0 < xi <= 1 -> 0 < quality_of ce bal du pr co xi.
Proof.
  intros D1 D2 D3 X. unfold quality_of.
  assert (C : 0 <= match ce with AmuModel.CEN_NONE => 0 | AmuModel.CEN_LOG => - co * ln xi | AmuModel.CEN_RECIPROCAL => co / xi
             | AmuModel.CEN_CUBED_RECIPROCAL => co / (xi * xi * xi) end).
  { destruct ce; [lra| | |].
    - assert (ln xi <= 0) by (rewrite <- ln_1; destruct (Req_dec xi 1) as [->|]; [lra|left; apply ln_increasing; lra]). nra.
    - apply Rmult_le_pos; [lra|left; apply Rinv_0_lt_compat; lra].
    - apply Rmult_le_pos; [lra|left; apply Rinv_0_lt_compat; repeat apply Rmult_lt_0_compat; apply X]. }
  assert (Bp : 0 <= if bal then Rmax 0 (Rmax du pr - co) * Rmax 0 (Rmax du pr - co) * Rmax 0 (Rmax du pr - co) else 0).
  { destruct bal; [|lra]. pose proof (Rmax_l 0 (Rmax du pr - co)) as M. set (z := Rmax 0 (Rmax du pr - co)) in *. clearbody z.
    apply Rmult_le_pos; [nra|exact M]. }
  lra.
Qed.
(** Its values are positive: what the golden section search of C80 needs. *)
Theorem C83_positive P o B m tau e i m1 W Y q d sv k ce bal aff cen sg :
  nlp_ok P -> opts_ok o -> dims_ok P e -> interior P o B e -> at_point P o B m1 e W Y q -> asked_at P o B m tau e i -> dep_mu P = false ->
  positive P B e -> 0 <= tau < 1 -> (0 < ntot P)%nat -> solver_ok P Y d sv ->
  sv 0%nat (-1) (rhs_aff i) = Some aff -> sv 1%nat 1 (rhs_cen i) = Some cen ->
  0 < qf_value P i k ce bal aff cen sg.
Proof.
  intros HP Ho HD HI T HA Hmu HPos Ht HN HS E1 E2.
  destruct (comb_step P o B m tau e i m1 W Y q d HP Ho HD HI T HA Hmu sv aff cen sg HS E1 E2) as [Dc _].
  pose proof (proj1 (aff_step P o B m tau e i m1 W Y q d HP Ho HD HI T HA Hmu sv aff HS E1)) as Da.
  assert (Ht' : 0 <= tau <= 1) by lra.
  pose proof (alpha_p P o B m tau e i aff cen sg HP HA HPos Ht' Da Dc) as Ap. pose proof (alpha_d P o B m tau e i aff cen sg HA HPos Ht' Da Dc) as Ad.
  assert (SF : forall al (fs : list fam), Forall2 (fun f g : fam => fst f = fst g /\ forall j, (j < fst f)%nat -> snd g j = (1 - al) * snd f j) fs
             (map (fun f : fam => (fst f, fun j => (1 - al) * snd f j)) fs)).
  { intros al fs. induction fs; constructor; [split; [reflexivity|intros; reflexivity]|assumption]. }
  destruct (value_is P o B m tau e i aff cen sg HP HD HA HPos Ht' Da Dc k ce bal _ _ (SF _ _) (SF _ _)) as (du & pr & co & xi & M1 & M2 & M3 & X & E).
  rewrite E. set (e' := moved _ _ _ _) in *.
  assert (Hp : positive P B e').
  { intros b j Hj. destruct (HPos b j Hj) as [P1 P2]. destruct (moved_nonneg P B e HP HD tau _ _ _ Ht' Ap Ad b j Hj) as [Q1 Q2]. fold e' in Q1, Q2. split; nra. }
  apply quality_pos; [eapply measure_nonneg; exact M1|eapply measure_nonneg; exact M2| |eapply centr_range; eassumption].
  assert (Ex : exists b, (0 < nb P b)%nat).
  { unfold ntot in HN. destruct (Nat.eq_dec (nb P XL) 0); [destruct (Nat.eq_dec (nb P XU) 0); [destruct (Nat.eq_dec (nb P SL) 0); [exists SU|exists SL]|exists XU]|exists XL]; lia. }
  destruct Ex as [b Hb]. apply (measure_pos _ _ _ _ (nb P b, fun k => sl P B b e' k * mul b e' k) 0%nat M3).
  - apply in_map_iff. exists b. split; [reflexivity|]. destruct b; cbn; tauto.
  - exact Hb.
  - cbn [snd]. destruct (Hp b 0%nat Hb). nra.
Qed.
(** The barrier parameter it returns is in the range, if the limits of sigma enclose 1 (see C80_mu_range_refuted). *)
Theorem C83_mu_range P i sv k ce bal n smin smax stol qtol mumin mumax aff delta mu :
  0 < i_avrg i -> Rmax smin (mumin / i_avrg i) <= 1 <= Rmin smax (mumax / i_avrg i) -> 0 <= stol ->
  quality P i sv k ce bal n smin smax stol qtol mumin mumax = Some (aff, delta, mu) -> mumin <= mu <= mumax.
Proof.
  intros Av L St E. unfold quality in E. destruct (sv 0%nat (-1) (rhs_aff i)) as [a|]; [|discriminate].
  destruct (sv 1%nat 1 (rhs_cen i)) as [c|]; [|discriminate].
  pose proof (proj1 (proj2 (AmuProps2.C80_oracle_range (qf_value P i k ce bal a c) n smin smax stol qtol mumin mumax (i_avrg i) Av L St))) as X.
  unfold AmuModel.qf_mu in X. set (sg := fst (AmuModel.qf_sigma _ _ _ _ _ _ _ _ _)) in *. clearbody sg.
  assert (Em : sg * i_avrg i = mu) by congruence. rewrite <- Em. exact X.
Qed.
(** ** From IpoptCalculatedQuantities to the oracles: the questions they ask at the current point *)
Definition the_oin (P : nlp) (o : opts) (tau : R) (s : CQModel.st) : oin :=
  Oin (ansV (cq_grad_lag_x P false) s) (ansV (cq_grad_lag_s P false) s) (ansV (cq_c P false) s) (ansV (cq_d_minus_s P false) s)
    (fun b => ansV (cq_compl P o false b) s) (fun b => ansV (cq_slack P o false b) s)
    (fun b => match b with XL => e_zL (E s false) | XU => e_zU (E s false) | SL => e_vL (E s false) | SU => e_vU (E s false) end)
    (ansN (cq_avrg_compl P o false) s) (ansV (cq_grad_kappa_x P o) s) (ansV (cq_grad_kappa_s P o) s) tau.
Theorem C83_from_calculated_quantities P o fixmu B0 mu0 s W id tau :
  nlp_ok P -> opts_ok o -> reach P o true fixmu B0 mu0 s -> mufree P fixmu -> mr W = n_x P /\ mc W = n_x P ->
  asked_at P o B0 (mu s) tau (E s false) (the_oin P o tau s) /\
  at_point P o B0 (mu s) (E s false) W (the_sys P o W id s) (the_cqv P o s) /\ dims_ok P (E s false) /\ interior P o B0 (E s false).
Proof.
  intros HP Ho HR Hm HW. destruct (C68_from_calculated_quantities P o fixmu B0 mu0 s W id HP Ho HR Hm HW) as (T & D0 & I0).
  split; [|auto].
  destruct (C57_function_values P o true fixmu B0 mu0 s HP Ho HR false) as (_ & _ & _ & F1 & _ & _ & _ & F2).
  destruct (C58_lagrangian_gradient P o true fixmu B0 mu0 s HP Ho HR Hm false) as (G1 & G2 & _ & _).
  pose proof (C59_slacks_and_barrier P o fixmu B0 mu0 s HP Ho HR false) as SB. destruct (SB XL) as (_ & _ & _ & _ & K1 & K2 & _).
  pose proof (fun b => proj1 (SB b)) as SL0.
  pose proof (fun b => proj1 (C59_complementarity P o fixmu B0 mu0 s HP Ho HR false b 0 N1)) as CO.
  destruct (C59_complementarity P o fixmu B0 mu0 s HP Ho HR false XL 0 N1) as (_ & _ & _ & _ & _ & AV & _ & _).
  constructor; cbn [the_oin i_gx i_gs i_c i_dms i_cmpl i_sl i_mul i_avrg i_kx i_ks i_tau]; auto.
  - rewrite F1. apply vis_self. apply (CQSpec.ok_c _ HP).
  - intros b. unfold mul. destruct D0 as (_ & _ & _ & _ & Z1 & Z2 & Z3 & Z4). destruct b; apply vis_self; assumption.
Qed.

(** ** Example: one variable, objective x, an inequality constraint 0 >= -1 (the slack variable s is bounded), W = 1 *)
Definition qxO : opts := Opts 100 0 (1/100) 0 N1 (1/1000000) (1/2000000).
Lemma qxO_ok : opts_ok qxO. Proof. constructor; cbn; lra. Qed.
Lemma qx_reach : reach exD qxO true true (exB (-1)) 1 exSD.
Proof.
  apply reach_start.
  assert (H : iter_ok exD qxO true (exB (-1)) exSD exID).
  { split; [repeat constructor|]. split; [repeat split; reflexivity|]. intros _ b k Hk. destruct b; cbn in Hk; try lia.
    destruct k; [|lia]. unfold sl. cbn. lra. }
  repeat (split; [first [reflexivity|exact H|intros []; split; reflexivity]|]). split; apply H.
Qed.
Definition qxY : psys := the_sys exD qxO exW [3%nat] exSD.
Definition qxI : oin := the_oin exD qxO (1/2) exSD.
Lemma qx_at : asked_at exD qxO (exB (-1)) 1 (1/2) (CQSpec.E exSD false) qxI /\
  at_point exD qxO (exB (-1)) 1 (CQSpec.E exSD false) exW qxY (the_cqv exD qxO exSD) /\ dims_ok exD (CQSpec.E exSD false) /\ interior exD qxO (exB (-1)) (CQSpec.E exSD false).
Proof. apply (C83_from_calculated_quantities exD qxO true (exB (-1)) 1 exSD exW [3%nat] (1/2) exD_ok qxO_ok qx_reach); [left; reflexivity|split; reflexivity]. Qed.
Definition qxsv (n : nat) (al : R) (r : iv) : option iv :=
  Some (IV [al * (vx r).[0]] [al * - (vyd r).[0]] [] [al * (- (vs r).[0] - (vvL r).[0] - (vyd r).[0])] [] [] [al * ((vvL r).[0] + (vyd r).[0])] []).
Lemma qx_solver : solver_ok exD qxY (Dl 0 0 0 0) qxsv.
Proof.
  destruct qx_at as (_ & T & _). destruct T as [tW tWd tJc tJd (p1 & p2 & p3 & p4) (z1 & z2 & z3 & z4) (s1 & s2 & s3 & s4) _ _ _ _ _ _].
  intros n al rhs v (R1 & R2 & R3 & R4 & R5 & R6 & R7 & R8) E. 
  exists (IV [(vx rhs).[0]] [- (vyd rhs).[0]] [] [- (vs rhs).[0] - (vvL rhs).[0] - (vyd rhs).[0]] [] [] [(vvL rhs).[0] + (vyd rhs).[0]] []).
  unfold qxsv in E. injection E as <-. generalize dependent qxY. intros Y tW tJc tJd p1 p2 p3 p4 z1 z2 z3 z4 s1 s2 s3 s4 R5 R6 R7 R8.
  rewrite p1, p2, p3, p4 in *. cbn [exD pos pxL pxU pdL pdU length n_x n_s n_c] in *.
  assert (Z0 : (y_vL Y).[0] = 1) by (rewrite z3; reflexivity).
  assert (S0 : (y_ssL Y).[0] = 1). { rewrite (proj2 s3) by (cbn; lia). unfold sl. cbn. lra. }
  split.
  - unfold solves, iv_ok, iv_is, newton. rewrite p1, p2, p3, p4. cbn [pos pxL pxU pdL pdU length exD of_iv w_x w_s w_c w_d w_zL w_zU w_vL w_vU vx vs vyc vyd vzL vzU vvL vvU].
    splits; try (split; [reflexivity|intros; reflexivity]); (split; [first [exact (proj1 R1)|exact (proj1 R2)|exact (proj1 R3)|exact (proj1 R4)|exact (proj1 R5)|exact (proj1 R6)|exact (proj1 R7)|exact (proj1 R8)]|]);
      intros [|j] Hj; try lia; rewrite ?tJc, ?tJd, ?tW; unfold Jv, JTv, scat; cbn [exD fn_Jc fn_Jd exW mr mc ment sumn nth Nat.eqb fold_right map]; cbn; rewrite ?Z0, ?S0; ring.
  - unfold iv_is, lin2, of_iv. rewrite p1, p2, p3, p4. cbn [exD pos pxL pxU pdL pdU length w_x w_s w_c w_d w_zL w_zU w_vL w_vU vx vs vyc vyd vzL vzU vvL vvU n_x n_s n_c].
    splits; (split; [reflexivity|]); intros [|j] Hj; try lia; cbn [nth]; ring.
Qed.
Lemma qx_positive : positive exD (exB (-1)) (CQSpec.E exSD false).
Proof. intros b k Hk. destruct b; cbn in Hk; try lia. destruct k; [|lia]. unfold sl, mul. cbn. lra. Qed.
Section Ex.
Variables (i0 : oin) (Y0 : psys) (q0 : cqv).
Hypotheses (A : asked_at exD qxO (exB (-1)) 1 (1/2) (CQSpec.E exSD false) i0) (T : at_point exD qxO (exB (-1)) 1 (CQSpec.E exSD false) exW Y0 q0)
  (D0 : dims_ok exD (CQSpec.E exSD false)) (I0 : interior exD qxO (exB (-1)) (CQSpec.E exSD false)) (SV : solver_ok exD Y0 (Dl 0 0 0 0) qxsv).
Lemma qx_aff : rhs_aff i0 = IV (i_gx i0) (i_gs i0) (i_c i0) (i_dms i0) (i_cmpl i0 XL) (i_cmpl i0 XU) (i_cmpl i0 SL) (i_cmpl i0 SU) /\
  (i_gx i0).[0] = 1 /\ (i_gs i0).[0] = -1 /\ (i_dms i0).[0] = 0 /\ (i_cmpl i0 SL).[0] = 1.
Proof.
  split; [reflexivity|].
  rewrite (proj2 (a_gx _ _ _ _ _ _ _ A)), (proj2 (a_gs _ _ _ _ _ _ _ A)), (proj2 (a_dms _ _ _ _ _ _ _ A)), (proj2 (a_cmpl _ _ _ _ _ _ _ A SL)) by (cbn; lia).
  unfold glag_x, gobj, glag_s, sl, mul, JTv, scat. cbn. repeat split; lra.
Qed.
Lemma probing_some P i sv smax mumin mumax step mu : probing P i sv smax mumin mumax = Some (step, mu) -> sv 0%nat (-1) (rhs_aff i) = Some step.
Proof. unfold probing. destruct (sv 0%nat (-1) (rhs_aff i)); congruence. Qed.
(** the affine step reaches the bound in the dual only, and the oracle proposes mu_min *)
Lemma c82_ex : exists step, probing exD i0 qxsv 100 (1/1000) 1 = Some (step, 1/1000) /\ step = IV [-1] [0] [] [0] [] [] [-1] [] /\
  newton_step exD qxO (exB (-1)) 0 (CQSpec.E exSD false) exW (Dl 0 0 0 0) (fun _ _ => 0) step.
Proof.
  destruct qx_aff as (E0 & E1 & E2 & E3 & E4).
  destruct (probing exD i0 qxsv 100 (1/1000) 1) as [[step mu]|] eqn:E;
    [|apply C82_fails in E; unfold qxsv in E; discriminate].
  assert (Es : step = IV [-1] [0] [] [0] [] [] [-1] []).
  { apply probing_some in E. unfold qxsv in E. rewrite E0 in E. cbn [vx vs vyd vvL] in E. rewrite E1, E2, E3, E4 in E.
    match type of E with Some ?a = _ => assert (X : a = step) by congruence; rewrite <- X end.
    f_equal; f_equal; lra. }
  exists step. pose proof (C82_affine_step exD qxO (exB (-1)) 1 (1/2) (CQSpec.E exSD false) i0 1 exW Y0 q0 (Dl 0 0 0 0)
    exD_ok qxO_ok D0 I0 T A eq_refl qxsv 100 (1/1000) 1 step mu SV E) as N.
  pose proof (C82_full_step exD qxO (exB (-1)) 1 (1/2) (CQSpec.E exSD false) i0 1 exW Y0 q0 (Dl 0 0 0 0)
    exD_ok qxO_ok D0 I0 T A eq_refl qxsv 100 (1/1000) 1 step mu SV qx_positive) as F.
  rewrite <- (F ltac:(cbn; lia) ltac:(lra) ltac:(lra) E); [split; [reflexivity|split; [exact Es|exact N]]|..].
  - rewrite Es. unfold pftb, ftb. split; [lra|]. split; [|intros; lra].
    intros n q dq k Hin Hk. cbn in Hin. unfold nb in Hin. cbn in Hin.
    destruct Hin as [X|[X|[X|[X|[]]]]]; injection X as <- <- <-; try lia. destruct k; [|lia]. unfold sl, dsl. cbn. lra.
  - rewrite Es. unfold dftb, ftb. split; [lra|]. split; [|intros; lra].
    intros n q dq k Hin Hk. cbn in Hin. unfold nb in Hin. cbn in Hin.
    destruct Hin as [X|[X|[X|[X|[]]]]]; injection X as <- <- <-; try lia. destruct k; [|lia]. cbn. lra.
  - rewrite Es. unfold cross, sumb, nb, dsl. cbn. lra.
Qed.
Lemma quality_some P i sv k ce bal n smin smax stol qtol mumin mumax aff delta mu :
  quality P i sv k ce bal n smin smax stol qtol mumin mumax = Some (aff, delta, mu) -> sv 0%nat (-1) (rhs_aff i) = Some aff.
Proof. unfold quality. destruct (sv 0%nat (-1) (rhs_aff i)), (sv 1%nat 1 (rhs_cen i)); congruence. Qed.
Lemma c83_ex : exists aff delta mu, quality exD i0 qxsv AmuModel.NM_2SQ AmuModel.CEN_LOG true 8 (1/10) 2 (1/100) 0 (1/1000) 100 = Some (aff, delta, mu) /\
  newton_step exD qxO (exB (-1)) mu (CQSpec.E exSD false) exW (Dl 0 0 0 0) (fun _ _ => 0) delta /\
  (forall sg cen, qxsv 1 1 (rhs_cen i0) = Some cen -> 0 < qf_value exD i0 AmuModel.NM_2SQ AmuModel.CEN_LOG true aff cen sg) /\
  kappa_d qxO = 0 /\ positive exD (exB (-1)) (CQSpec.E exSD false) /\ (0 < ntot exD)%nat.
Proof.
  destruct (quality exD i0 qxsv AmuModel.NM_2SQ AmuModel.CEN_LOG true 8 (1/10) 2 (1/100) 0 (1/1000) 100) as [[[aff delta] mu]|] eqn:E;
    [|apply C83_fails in E; destruct E as [E|E]; unfold qxsv in E; discriminate].
  exists aff, delta, mu. split; [exact eq_refl|].
  destruct (C83_steps exD qxO (exB (-1)) 1 (1/2) (CQSpec.E exSD false) i0 1 exW Y0 q0 (Dl 0 0 0 0)
    exD_ok qxO_ok D0 I0 T A eq_refl qxsv _ _ _ _ _ _ _ _ _ _ aff delta mu SV E) as [_ N].
  split; [exact N|]. split; [|split; [reflexivity|split; [exact qx_positive|cbn; lia]]].
  intros sg cen E2. apply (C83_positive exD qxO (exB (-1)) 1 (1/2) (CQSpec.E exSD false) i0 1 exW Y0 q0 (Dl 0 0 0 0) qxsv _ _ _ aff cen sg
    exD_ok qxO_ok D0 I0 T A eq_refl qx_positive ltac:(lra) ltac:(cbn; lia) SV); [|exact E2].
  exact (quality_some _ _ _ _ _ _ _ _ _ _ _ _ _ _ _ _ E).
Qed.
End Ex.
Example C82_nonvacuous : exists step, probing exD qxI qxsv 100 (1/1000) 1 = Some (step, 1/1000) /\ step = IV [-1] [0] [] [0] [] [] [-1] [] /\
  newton_step exD qxO (exB (-1)) 0 (CQSpec.E exSD false) exW (Dl 0 0 0 0) (fun _ _ => 0) step.
Proof. destruct qx_at as (A & T & D0 & I0). exact (c82_ex _ _ _ A T D0 I0 qx_solver). Qed.
Example C83_nonvacuous : exists aff delta mu, quality exD qxI qxsv AmuModel.NM_2SQ AmuModel.CEN_LOG true 8 (1/10) 2 (1/100) 0 (1/1000) 100 = Some (aff, delta, mu) /\
  newton_step exD qxO (exB (-1)) mu (CQSpec.E exSD false) exW (Dl 0 0 0 0) (fun _ _ => 0) delta /\
  (forall sg cen, qxsv 1 1 (rhs_cen qxI) = Some cen -> 0 < qf_value exD qxI AmuModel.NM_2SQ AmuModel.CEN_LOG true aff cen sg) /\
  kappa_d qxO = 0 /\ positive exD (exB (-1)) (CQSpec.E exSD false) /\ (0 < ntot exD)%nat.
Proof. destruct qx_at as (A & T & D0 & I0). exact (c83_ex _ _ _ A T D0 I0 qx_solver). Qed.
(** For nonlinear problems the quality function does not see the infeasibility of the point the step leads to:
    here it predicts zero constraint violation for a point that violates a constraint by 9/4. *)
Definition qxN : nlp := NLP 1 0 1 [O] [] [] [] false (fun _ => 0) (fun _ _ => 0) (fun _ => [0]) (fun _ _ => [0])
  (fun x => [x.[0] * x.[0] - 4]) (fun _ => []) (fun x => Mat 1 1 (fun _ _ => 2 * x.[0])) (fun _ => Mat 0 1 (fun _ _ => 0))
  (fun _ _ _ _ => Mat 1 1 (fun _ _ => 0)) (fun _ _ _ _ _ => Mat 1 1 (fun _ _ => 0)) 1 (fun _ => 1) (fun _ => 1) (fun _ => 1) false None None.
Definition qxB (b : bd) : vec := match b with XL => [0] | _ => [] end.
Definition qxE : env := Env [1] [] [0] [] [1] [] [] [].
Definition qxV : iv := IV [3/2] [] [-3/4] [] [-5/2] [] [] [].
Theorem C83_nonlinear_infeasibility_refuted :
  ~ (forall P o B e W v ap ad k n pr pr', nlp_ok P -> opts_ok o -> dims_ok P e -> interior P o B e -> positive P B e ->
       newton_step P o B 0 e W (Dl 0 0 0 0) (fun _ _ => 0) v -> pftb P B 1 e (vx v) (vs v) ap -> dftb P 1 e (dz v) ad ->
       measure k n (lin_primal P ap e v) pr -> measure k n (primal_fams P (moved ap ad e v)) pr' -> pr = pr').
Proof.
  intros H.
  specialize (H qxN qxO qxB qxE (Mat 1 1 (fun _ _ => 0)) qxV 1 (2/5) AmuModel.NM_MAX 1%nat 0 (9/4)).
  cut (0 = 9/4); [lra|]. apply H; clear H.
  - constructor; cbn; try reflexivity; try (intros; split; reflexivity); try (intros; lra); try lra; try (intros; discriminate).
    + intros [] j Hj; cbn in Hj; try tauto. destruct Hj as [<-|[]]. lia.
    + intros []; cbn; repeat constructor. intros [].
  - exact qxO_ok.
  - repeat split.
  - intros b k Hk. destruct b; cbn in Hk; try lia. destruct k; [|lia]. unfold sl. cbn. lra.
  - intros b k Hk. destruct b; cbn in Hk; try lia. destruct k; [|lia]. unfold sl, mul. cbn. lra.
  - unfold newton_step. split; [repeat split|].
    repeat split; intros [|j] Hj; cbn in Hj; try lia; unfold glag_x, gobj, glag_s, dampg_x, sl, mul, JTv, Jv, scat; cbn; lra.
  - unfold pftb, ftb. split; [lra|]. split; [|intros; lra].
    intros n q dq k Hin Hk. cbn in Hin. unfold nb in Hin. cbn in Hin.
    destruct Hin as [X|[X|[X|[X|[]]]]]; injection X as <- <- <-; try lia. destruct k; [|lia]. unfold sl, dsl. cbn. lra.
  - unfold dftb, ftb. split; [lra|]. split.
    + intros n q dq k Hin Hk. cbn in Hin. unfold nb in Hin. cbn in Hin.
      destruct Hin as [X|[X|[X|[X|[]]]]]; injection X as <- <- <-; try lia. destruct k; [|lia]. cbn. lra.
    + intros a Ha Hok. specialize (Hok 1%nat (mul XL qxE) (fun k => (dz qxV XL).[k]) 0%nat (or_introl eq_refl) ltac:(lia)). cbn in Hok. lra.
  - cbn [measure norm_is]. split; [|left; reflexivity]. intros f j [<-|[<-|[]]] Hj; cbn in Hj; [|lia]. destruct j; [|lia].
    unfold Jv. cbn. match goal with |- Rabs ?x <= 0 => replace x with 0 by lra end. rewrite Rabs_R0. lra.
  - cbn [measure norm_is]. split.
    + intros f j [<-|[<-|[]]] Hj; cbn in Hj; [|lia]. destruct j; [|lia]. cbn. apply Req_le. rewrite Rabs_pos_eq; lra.
    + right. exists (1%nat, fun j => (fn_c qxN (e_x (moved 1 (2/5) qxE qxV))).[j]), 0%nat. split; [left; reflexivity|]. split; [cbn; lia|].
      cbn. rewrite Rabs_pos_eq; lra.
Qed.
Print Assumptions C82_affine_step.
Print Assumptions C82_affine_step_solver.
Print Assumptions C82_mu.
Print Assumptions C82_equal_steps.
Print Assumptions C82_full_step.
Print Assumptions C82_fails.
Print Assumptions C83_steps.
Print Assumptions C83_fails.
Print Assumptions C83_step_lengths.
Print Assumptions C83_quality.
Print Assumptions C83_quality_affine.
Print Assumptions C83_positive.
Print Assumptions C83_mu_range.
Print Assumptions C83_from_calculated_quantities.
Print Assumptions C83_nonlinear_infeasibility_refuted.
