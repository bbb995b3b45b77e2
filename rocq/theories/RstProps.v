(** C74-C77: the restoration phase. *)
From Coq Require Import Reals List Arith Bool Lra Lia.
From Verif Require Import CQModel CQSpec CQVec CQFuns PdModel PdSpec PdAlg AugModel AugSpec AugProps RstModel RstSpec RstProofs RstNlp.
From Verif Require ConvModel.
Import ListNotations.
Open Scope R_scope.
Local Notation "v .[ i ]" := (nth i v 0) (at level 1, format "v .[ i ]").

(** * C74: the system of the restoration phase is solved through the system of the original problem *)
Section C74.
Variable P : nlp.
Notation nx := (n_x P). Notation nd := (n_s P). Notation nc := (n_c P).
Context {L : Type}.
Variable asolve : L -> aarg -> av -> bool -> nat -> status * av * L.

(** Given a solver of the original problem's augmented system whose successful answers are solutions, the successful answers
    here are solutions of the system of the restoration problem; an answer that is not successful writes nothing. *)
Theorem C74_solution : aug_exact P asolve -> forall q b chk n l r o l',
  rarg_ok nx nd nc q -> rav_ok nx nd nc b -> regular nd nc q -> q_Dd q = None -> q_wf q = 1 \/ is_low (q_W q) ->
  resto_solve asolve l q b chk n = (r, o, l') ->
  (r = SUCCESS /\ exists a, o = Some a /\ solves_resto nx nd nc q b a) \/ (r <> SUCCESS /\ o = None).
Proof.
  intros EX q b chk n l r o l' Q B RG ND WF. unfold resto_solve. destruct (asolve l (small_arg q b) (small_rhs q b) chk n) as [[r0 a] l0] eqn:E.
  destruct r0; intros H; inversion H; subst; try (right; split; [discriminate|reflexivity]). left. split; [reflexivity|].
  eexists. split; [reflexivity|]. apply schur_forward; try assumption. eapply EX; [| |exact E].
  - apply small_arg_ok; assumption.
  - destruct (small_rhs_is nx nd nc q b Q B RG) as ([X1 _] & [X2 _] & [X3 _] & [X4 _]). unfold av_ok. splits; assumption.
Qed.
(** Nothing is lost: if the solution of the smaller system is unique, so is that of the larger one. *)
Theorem C74_no_other_solution : forall q b, rarg_ok nx nd nc q -> rav_ok nx nd nc b -> regular nd nc q -> q_Dd q = None -> q_wf q = 1 \/ is_low (q_W q) ->
  forall A, solves_resto nx nd nc q b A ->
  exists a, solves_arg nx nd nc (small_arg q b) (small_rhs q b) a /\ back q b a = A.
Proof.
  intros q b Q B RG ND WF A HA. destruct (schur_backward nx nd nc q b Q B RG ND WF A HA) as [S1 S2].
  eexists. split; [exact S1|]. destruct S1 as [AO _]. pose proof (back_is nx nd nc q b Q B RG _ AO) as S3.
  destruct S2 as (E1 & E2 & E3 & E4 & N & P1 & M & O1). destruct S3 as (F1 & F2 & F3 & F4 & N' & P' & M' & O').
  assert (U : forall v w n f, vec_is v n f -> vec_is w n f -> v = w).
  { intros v w n0 f [V1 V2] [W1 W2]. apply (nth_ext _ _ 0 0); [congruence|]. intros i Hi. rewrite V2, W2 by (congruence || lia). reflexivity. }
  destruct A as [[Ax An Ap Am Ao] As Ac Ad]. destruct (back q b _) as [[Bx Bn Bp Bm Bo] Bs Bc Bd]. cbn [ra_x ra_s ra_c ra_d r_x r_nc r_pc r_nd r_pd ax as_ ac ad] in *.
  subst. f_equal. f_equal; eapply U; eassumption.
Qed.
End C74.

(** the data of the following counterexamples: one variable, one inequality, J_d = 1 *)
Definition one_m : mat := Mat 1 1 (fun _ _ => 1).
Definition zero_m : mat := Mat 1 1 (fun _ _ => 0).
Definition no_m : mat := Mat 0 1 (fun _ _ => 0).
Definition exq (wf : R) (Dd : option vec) : rarg :=
  RArg (HSum 1 zero_m 1 [1]) wf (Some (RV [1] [] [] [1] [1])) 0 (Some [1]) 0 (RJac no_m (Some 1) (Some (-1)) None None) None 0
       (RJac one_m None None (Some 1) (Some (-1))) Dd 0.
Definition exb (bx bs bd : R) : rav := RAv (RV [bx] [] [] [0] [0]) [bs] [] [bd].
Lemma exq_ok wf Dd : olen Dd 1 -> rarg_ok 1 1 0 (exq wf Dd).
Proof. intros H. constructor; cbn; repeat (apply conj); try reflexivity; try exact H; exact Logic.I. Qed.
Lemma exq_reg wf Dd : regular 1 0 (exq wf Dd).
Proof. split; intros i Hi; [lia|]. assert (i = O) as -> by lia. cbn. lra. Qed.
Lemma exb_ok a b c : rav_ok 1 1 0 (exb a b c).
Proof. unfold rav_ok, rv_ok. cbn. tauto. Qed.

Lemma ex_small wf Dd bx bs bd a : olen Dd 1 -> solves_arg 1 1 0 (small_arg (exq wf Dd) (exb bx bs bd)) (small_rhs (exq wf Dd) (exb bx bs bd)) a ->
  bx = 2 * (ax a).[0] + (ad a).[0] /\ bs = (as_ a).[0] - (ad a).[0] /\
  bd = (ax a).[0] - (as_ a).[0] + match Dd with Some D => D.[0] | None => -2 end * (ad a).[0].
Proof.
  intros OD ((A1 & A2 & A3 & A4) & [_ X] & [_ S0] & _ & [_ D]). specialize (X O (Nat.lt_0_succ 0)). specialize (S0 O (Nat.lt_0_succ 0)). specialize (D O (Nat.lt_0_succ 0)).
  destruct (small_rhs_is 1 1 0 (exq wf Dd) (exb bx bs bd) (exq_ok wf Dd OD) (exb_ok _ _ _) (exq_reg _ _)) as ([_ R1] & [_ R2] & _ & [_ R4]).
  rewrite R1 in X by lia. rewrite R2 in S0 by lia. rewrite R4 in D by lia.
  unfold row_x, row_s, row_d, wv, small_arg, sigmas, sig_inv, neg_omega_d, dx_plus, exq, exb, Jv, JTv in *.
  cbn [q_W q_wf q_Dx q_dx q_Ds q_ds q_Jc q_Dc q_dc q_Jd q_Dd q_dd ra_x ra_s ra_c ra_d r_x r_nc r_pc r_nd r_pd j_0 j_nc j_pc j_nd j_pd g_W g_wf g_Dx g_dx g_Ds g_ds g_Jc g_Dc g_dc g_Jd g_Dd g_dd dv dvr gi nth idm] in *.
  destruct (Req_EM_T 0 0) as [_|X0]; [|lra].
  cbn [sumn mr mc ment one_m zero_m no_m nth dvr gi] in *.
  unfold add_two, axpy, vmap, vmap2, vset, mk, el, gi in *. cbn [nth dim length seq map combine dvr exq q_Dx q_dx r_nd r_pd] in *.
  split; [|split].
  - lra.
  - lra.
  - unfold Rdiv in D. replace (1 + 0) with 1 in D by ring. destruct Dd as [D0|]; cbn [dv nth] in D; rewrite ?Rinv_1 in D; lra.
Qed.
(** Where the conditions of C74_solution come from: if D_d is given, the answer of an exact solver is not a solution *)
Theorem C74_D_d_refuted : exists q b, rarg_ok 1 1 0 q /\ rav_ok 1 1 0 b /\ regular 1 0 q /\ q_wf q = 1 /\
  (exists a, solves_arg 1 1 0 (small_arg q b) (small_rhs q b) a) /\
  forall a, solves_arg 1 1 0 (small_arg q b) (small_rhs q b) a -> ~ solves_resto 1 1 0 q b (back q b a).
Proof.
  exists (exq 1 (Some [-1])), (exb 1 (-1) (-1)). splits; [apply exq_ok; reflexivity|apply exb_ok|apply exq_reg|reflexivity| |].
  - exists (AV [0] [0] [] [1]). unfold solves_arg, rows_are, av_ok, vec_is. cbn [ax as_ ac ad length]. splits; try reflexivity; try (intros i Hi; lia);
      intros i Hi; assert (i = O) as -> by lia; unfold row_x, row_s, row_d, wv, small_arg, small_rhs, sigmas, sig_inv, neg_omega_d, dx_plus, rhs_d, idm, exq, exb, Jv, JTv;
      cbn [q_W q_wf q_Dx q_dx q_Ds q_ds q_Jc q_Dc q_dc q_Jd q_Dd q_dd ra_x ra_s ra_c ra_d r_x r_nc r_pc r_nd r_pd j_0 j_nc j_pc j_nd j_pd g_W g_wf g_Dx g_dx g_Ds g_ds g_Jc g_Dc g_dc g_Jd g_Dd g_dd dv nth sumn mr mc ment one_m zero_m no_m ax as_ ac ad];
      try (destruct (Req_EM_T 0 0) as [_|X0]; [|lra]); unfold add_two, axpy, emul, vmap, vmap2, vset, mk, el; cbn; unfold el; cbn; lra.
  - intros a HA. pose proof (ex_small 1 (Some [-1]) 1 (-1) (-1) a eq_refl HA) as (E1 & E2 & E3). cbn [nth] in E3. destruct HA as [AO _].
    intros (_ & _ & _ & _ & [_ N] & [_ M] & _ & _ & [_ D]). specialize (D O (Nat.lt_0_succ 0)). specialize (N O (Nat.lt_0_succ 0)). specialize (M O (Nat.lt_0_succ 0)).
    destruct (back_is 1 1 0 (exq 1 (Some [-1])) (exb 1 (-1) (-1)) (exq_ok 1 (Some [-1]) eq_refl) (exb_ok _ _ _) (exq_reg _ _) a AO) as (F1 & F2 & F3 & F4 & _).
    unfold rrow_d, rrow_nd, rrow_pd, Jv in *. rewrite F1, F2, F4 in D. rewrite F4 in N, M. cbn in D, N, M. lra.
Qed.
(** With W_factor = 0 the term D_R^2 of the Hessian stays in the system; this is what the calculation of least squares
    multipliers asks for in the restoration phase *)
Theorem C74_hessian_factor_refuted : exists q b, rarg_ok 1 1 0 q /\ rav_ok 1 1 0 b /\ regular 1 0 q /\ q_Dd q = None /\ q_wf q = 0 /\
  (exists a, solves_arg 1 1 0 (small_arg q b) (small_rhs q b) a) /\
  forall a, solves_arg 1 1 0 (small_arg q b) (small_rhs q b) a -> ~ solves_resto 1 1 0 q b (back q b a).
Proof.
  exists (exq 0 None), (exb 2 0 1). splits; [apply exq_ok; exact Logic.I|apply exb_ok|apply exq_reg|reflexivity|reflexivity| |].
  - exists (AV [1] [0] [] [0]). unfold solves_arg, rows_are, av_ok, vec_is. cbn [ax as_ ac ad length]. splits; try reflexivity; try (intros i Hi; lia);
      intros i Hi; assert (i = O) as -> by lia; unfold row_x, row_s, row_d, wv, small_arg, small_rhs, sigmas, sig_inv, neg_omega_d, dx_plus, rhs_d, idm, exq, exb, Jv, JTv;
      cbn [q_W q_wf q_Dx q_dx q_Ds q_ds q_Jc q_Dc q_dc q_Jd q_Dd q_dd ra_x ra_s ra_c ra_d r_x r_nc r_pc r_nd r_pd j_0 j_nc j_pc j_nd j_pd g_W g_wf g_Dx g_dx g_Ds g_ds g_Jc g_Dc g_dc g_Jd g_Dd g_dd dv nth sumn mr mc ment one_m zero_m no_m ax as_ ac ad];
      try (destruct (Req_EM_T 0 0) as [_|X0]; [|lra]); unfold add_two, axpy, emul, vmap, vmap2, vset, mk, el; cbn; unfold el; cbn; try lra; unfold Rdiv; rewrite ?Rinv_1; lra.
  - intros a HA. pose proof (ex_small 0 None 2 0 1 a Logic.I HA) as (E1 & E2 & E3). destruct HA as [AO _].
    intros (_ & [_ X] & _). specialize (X O (Nat.lt_0_succ 0)).
    destruct (back_is 1 1 0 (exq 0 None) (exb 2 0 1) (exq_ok 0 None Logic.I) (exb_ok _ _ _) (exq_reg _ _) a AO) as (F1 & F2 & F3 & F4 & _).
    unfold rrow_x, Jv, JTv, Wx in *. rewrite F1, F3, F4 in X. cbn in X. unfold Jv in X. cbn in X. lra.
Qed.
Example C74_nonvacuous : rarg_ok 1 1 0 (exq 1 None) /\ rav_ok 1 1 0 (exb 2 0 1) /\ regular 1 0 (exq 1 None) /\ q_Dd (exq 1 None) = None /\
  exists a, solves_arg 1 1 0 (small_arg (exq 1 None) (exb 2 0 1)) (small_rhs (exq 1 None) (exb 2 0 1)) a.
Proof.
  splits; [apply exq_ok; exact Logic.I|apply exb_ok|apply exq_reg|reflexivity|].
  exists (AV [1] [0] [] [0]). unfold solves_arg, rows_are, av_ok, vec_is. cbn [ax as_ ac ad length]. splits; try reflexivity; try (intros i Hi; lia);
      intros i Hi; assert (i = O) as -> by lia; unfold row_x, row_s, row_d, wv, small_arg, small_rhs, sigmas, sig_inv, neg_omega_d, dx_plus, rhs_d, idm, exq, exb, Jv, JTv;
      cbn [q_W q_wf q_Dx q_dx q_Ds q_ds q_Jc q_Dc q_dc q_Jd q_Dd q_dd ra_x ra_s ra_c ra_d r_x r_nc r_pc r_nd r_pd j_0 j_nc j_pc j_nd j_pd g_W g_wf g_Dx g_dx g_Ds g_ds g_Jc g_Dc g_dc g_Jd g_Dd g_dd dv nth sumn mr mc ment one_m zero_m no_m ax as_ ac ad];
      try (destruct (Req_EM_T 0 0) as [_|X0]; [|lra]); unfold add_two, axpy, emul, vmap, vmap2, vset, mk, el; cbn; unfold el; cbn; try lra; unfold Rdiv; rewrite ?Rinv_1; lra.
Qed.

(** * C75: the restoration problem *)
Lemma sumn_le n f g : (forall i, (i < n)%nat -> f i <= g i) -> sumn n f <= sumn n g.
Proof. induction n as [|n IH]; intros H; cbn [sumn]; [lra|]. apply Rplus_le_compat; [apply IH; intros i Hi; apply H; lia|apply H; lia]. Qed.
Section C75.
Variable Z : resto.
Notation P := (z_P Z). Notation nx := (n_x P). Notation nc := (n_c P). Notation nd := (n_s P).
Hypotheses (HP : nlp_ok P) (HR : length (z_ref Z) = nx).

(** the objective is rho times the sum of n and p, plus the weighted distance from the reference point *)
Theorem C75_objective : forall x mu, rv_ok nx nd nc x -> resto_f Z x mu = objective Z x mu.
Proof. intros x mu H. apply f_is; assumption. Qed.
(** grad_f is its gradient *)
Theorem C75_gradient : forall x v mu, rv_ok nx nd nc x -> rv_ok nx nd nc v ->
  derivable_pt_lim (fun t => resto_f Z (rmove x t v) mu) 0 (rdot (resto_g Z x mu) v).
Proof.
  intros x v mu Hx Hv. set (c := sumn nx (fun i => z_eta Z * Rpower mu (z_exp Z) * (DR Z i * (r_x v).[i]) * (DR Z i * (r_x v).[i]))).
  apply (dlim_ext (fun t => resto_f Z x mu + t * rdot (resto_g Z x mu) v + t * t / 2 * c)).
  { intros t. symmetry. apply f_expand; assumption. }
  intros e He. assert (D0 : 0 < e / (Rabs c + 1)) by (apply Rdiv_lt_0_compat; [exact He|pose proof (Rabs_pos c); lra]).
  exists (mkposreal _ D0). intros h H1 H2. change (Rabs h < e / (Rabs c + 1)) in H2.
  replace ((resto_f Z x mu + (0 + h) * rdot (resto_g Z x mu) v + (0 + h) * (0 + h) / 2 * c - (resto_f Z x mu + 0 * rdot (resto_g Z x mu) v + 0 * 0 / 2 * c)) / h - rdot (resto_g Z x mu) v) with (h * (c / 2)) by (field; exact H1).
  rewrite Rabs_mult. pose proof (Rabs_pos c) as CP. pose proof (Rabs_pos h) as HPo.
  assert (C2 : Rabs (c / 2) <= Rabs c). { unfold Rdiv. rewrite Rabs_mult, (Rabs_right (/2)) by lra. lra. }
  apply (Rle_lt_trans _ (Rabs h * (Rabs c + 1))); [apply Rmult_le_compat_l; lra|].
  apply (Rmult_lt_compat_r (Rabs c + 1)) in H2; [|lra]. unfold Rdiv in H2. rewrite Rmult_assoc, Rinv_l, Rmult_1_r in H2 by lra. exact H2.
Qed.
(** the constraints are c(x) + n_c - p_c and d(x) + n_d - p_d; their Jacobians are right where those of the original problem are *)
Theorem C75_constraints : forall x, rv_ok nx nd nc x ->
  vec_is (resto_c Z x) nc (fun i => (fn_c P (r_x x)).[i] + (r_nc x).[i] - (r_pc x).[i]) /\
  vec_is (resto_d Z x) nd (fun i => (fn_d P (r_x x)).[i] + (r_nd x).[i] - (r_pd x).[i]).
Proof. intros x H. split; [apply c_is; assumption|apply d_is; assumption]. Qed.
Theorem C75_jacobians : forall x v, rv_ok nx nd nc x -> rv_ok nx nd nc v ->
  (jac_right (fn_c P) (fn_Jc P) nx nc (r_x x) -> forall i, (i < nc)%nat ->
     derivable_pt_lim (fun t => (resto_c Z (rmove x t v)).[i]) 0 (rj_mul (resto_Jc Z x) v).[i]) /\
  (jac_right (fn_d P) (fn_Jd P) nx nd (r_x x) -> forall i, (i < nd)%nat ->
     derivable_pt_lim (fun t => (resto_d Z (rmove x t v)).[i]) 0 (rj_mul (resto_Jd Z x) v).[i]).
Proof. intros x v Hx Hv. split; intros J i Hi; [apply c_diff|apply d_diff]; assumption. Qed.
(** products with the transposed Jacobians are those of the same matrices: y' (J v) = (J' y)' v *)
Lemma rdot_len a v n1 n2 n3 n4 n5 : length (r_x a) = n1 -> length (r_nc a) = n2 -> length (r_pc a) = n3 -> length (r_nd a) = n4 -> length (r_pd a) = n5 ->
  rdot a v = sumn n1 (fun i => (r_x a).[i] * (r_x v).[i]) + sumn n2 (fun i => (r_nc a).[i] * (r_nc v).[i]) + sumn n3 (fun i => (r_pc a).[i] * (r_pc v).[i])
    + sumn n4 (fun i => (r_nd a).[i] * (r_nd v).[i]) + sumn n5 (fun i => (r_pd a).[i] * (r_pd v).[i]).
Proof. intros <- <- <- <- <-. reflexivity. Qed.
Lemma sum_swap J y v n m : mr J = m -> mc J = n -> sumn m (fun i => y.[i] * Jv J v i) = sumn n (fun j => JTv J y j * v.[j]).
Proof.
  intros <- <-. unfold Jv, JTv. 
  transitivity (sumn (mr J) (fun i => sumn (mc J) (fun j => y.[i] * (ment J i j * v.[j])))).
  { apply sumn_ext. intros i _. symmetry. apply sumn_scal. }
  transitivity (sumn (mc J) (fun j => sumn (mr J) (fun i => y.[i] * (ment J i j * v.[j])))).
  - generalize (mr J) as m, (mc J) as n. intros m n. induction m as [|m IH]; [cbn [sumn]; symmetry; apply sumn_0|].
    cbn [sumn]. rewrite IH, <- sumn_plus. apply sumn_ext. intros j _. reflexivity.
  - apply sumn_ext. intros j _. rewrite (Rmult_comm (sumn _ _)), <- sumn_scal. apply sumn_ext. intros i _. ring.
Qed.
Theorem C75_transposed : forall x v yc yd, rv_ok nx nd nc x -> rv_ok nx nd nc v -> length yc = nc -> length yd = nd ->
  sumn nc (fun i => yc.[i] * (rj_mul (resto_Jc Z x) v).[i]) = rdot (rj_tmul nc nd (resto_Jc Z x) yc) v /\
  sumn nd (fun i => yd.[i] * (rj_mul (resto_Jd Z x) v).[i]) = rdot (rj_tmul nc nd (resto_Jd Z x) yd) v.
Proof.
  intros x v yc yd Hx Hv Lc Ld. destruct (jc_is Z HP x v Hx Hv) as [_ JC]. destruct (jd_is Z HP x v Hx Hv) as [_ JD].
  destruct (p_Jc _ HP (r_x x)) as [A1 A2]. destruct (p_Jd _ HP (r_x x)) as [A3 A4].
  destruct (jt_is _ yc nx nc Lc A1 A2) as [T1 T2]. destruct (jt_is _ yd nx nd Ld A3 A4) as [T3 T4].
  assert (ID : forall a y n, length y = n -> vec_is (id_t (Some a) y n) n (fun i => a * y.[i])) by (intros a y n L; cbn [id_t]; apply vmap_is; apply vis_self; exact L).
  assert (IZ : forall y n, vec_is (id_t None y n) n (fun i => 0)) by (intros y n; cbn [id_t]; apply vset_is).
  split.
  - rewrite (sumn_ext nc _ (fun i => yc.[i] * Jv (fn_Jc P (r_x x)) (r_x v) i + (1 * (yc.[i] * (r_nc v).[i]) + -1 * (yc.[i] * (r_pc v).[i])))) by (intros i Hi; rewrite JC by exact Hi; ring).
    destruct (ID 1 yc nc Lc) as [I1 I2]. destruct (ID (-1) yc nc Lc) as [I3 I4]. destruct (IZ yc nd) as [Z1 Z2].
    unfold rj_tmul, resto_Jc. cbn [j_0 j_nc j_pc j_nd j_pd].
    rewrite (rdot_len _ v nx nc nc nd nd) by assumption. cbn [r_x r_nc r_pc r_nd r_pd].
    rewrite !sumn_plus, (sum_swap _ yc (r_x v) nx nc A1 A2).
    rewrite (sumn_ext nd (fun i => (id_t None yc nd).[i] * (r_nd v).[i]) (fun _ => 0)) by (intros i Hi; rewrite Z2 by exact Hi; ring).
    rewrite (sumn_ext nd (fun i => (id_t None yc nd).[i] * (r_pd v).[i]) (fun _ => 0)) by (intros i Hi; rewrite Z2 by exact Hi; ring).
    rewrite sumn_0.
    rewrite (sumn_ext nc (fun i => (id_t (Some 1) yc nc).[i] * (r_nc v).[i]) (fun i => 1 * (yc.[i] * (r_nc v).[i]))) by (intros i Hi; rewrite I2 by exact Hi; ring).
    rewrite (sumn_ext nc (fun i => (id_t (Some (-1)) yc nc).[i] * (r_pc v).[i]) (fun i => -1 * (yc.[i] * (r_pc v).[i]))) by (intros i Hi; rewrite I4 by exact Hi; ring).
    rewrite (sumn_ext nx (fun i => (mtmul (fn_Jc P (r_x x)) 1 yc 0 []).[i] * (r_x v).[i]) (fun j => JTv (fn_Jc P (r_x x)) yc j * (r_x v).[j])) by (intros i Hi; rewrite T2 by exact Hi; reflexivity).
    ring.
  - rewrite (sumn_ext nd _ (fun i => yd.[i] * Jv (fn_Jd P (r_x x)) (r_x v) i + (1 * (yd.[i] * (r_nd v).[i]) + -1 * (yd.[i] * (r_pd v).[i])))) by (intros i Hi; rewrite JD by exact Hi; ring).
    destruct (ID 1 yd nd Ld) as [I1 I2]. destruct (ID (-1) yd nd Ld) as [I3 I4]. destruct (IZ yd nc) as [Z1 Z2].
    unfold rj_tmul, resto_Jd. cbn [j_0 j_nc j_pc j_nd j_pd].
    rewrite (rdot_len _ v nx nc nc nd nd) by assumption. cbn [r_x r_nc r_pc r_nd r_pd].
    rewrite !sumn_plus, (sum_swap _ yd (r_x v) nx nd A3 A4).
    rewrite (sumn_ext nc (fun i => (id_t None yd nc).[i] * (r_nc v).[i]) (fun _ => 0)) by (intros i Hi; rewrite Z2 by exact Hi; ring).
    rewrite (sumn_ext nc (fun i => (id_t None yd nc).[i] * (r_pc v).[i]) (fun _ => 0)) by (intros i Hi; rewrite Z2 by exact Hi; ring).
    rewrite sumn_0.
    rewrite (sumn_ext nd (fun i => (id_t (Some 1) yd nd).[i] * (r_nd v).[i]) (fun i => 1 * (yd.[i] * (r_nd v).[i]))) by (intros i Hi; rewrite I2 by exact Hi; ring).
    rewrite (sumn_ext nd (fun i => (id_t (Some (-1)) yd nd).[i] * (r_pd v).[i]) (fun i => -1 * (yd.[i] * (r_pd v).[i]))) by (intros i Hi; rewrite I4 by exact Hi; ring).
    rewrite (sumn_ext nx (fun i => (mtmul (fn_Jd P (r_x x)) 1 yd 0 []).[i] * (r_x v).[i]) (fun j => JTv (fn_Jd P (r_x x)) yd j * (r_x v).[j])) by (intros i Hi; rewrite T4 by exact Hi; reflexivity).
    ring.
Qed.
(** the Hessian of the Lagrangian is the derivative of the gradient of the Lagrangian, in every block k of the variables, if that of the
    original problem (objective factor 0) is *)
Theorem C75_hessian : forall x v of_ yc yd mu k i, rv_ok nx nd nc x -> rv_ok nx nd nc v -> length yc = nc -> length yd = nd ->
  mr (fn_h P (r_x x) 0 yc yd) = nx /\ mc (fn_h P (r_x x) 0 yc yd) = nx -> hess_right Z (r_x x) yc yd -> (k < 5)%nat -> (i < bdim Z k)%nat ->
  derivable_pt_lim (fun t => rlag Z of_ yc yd mu (rmove x t v) k i) 0 (rpart k (rh_mul nc nd (resto_h Z x of_ yc yd mu) v)).[i].
Proof. intros. apply h_diff; assumption. Qed.

(** minimising over n and p gives the l1 penalty function of the constraint violation *)
Definition reg (x : vec) (mu : R) : R :=
  z_eta Z * Rpower mu (z_exp Z) / 2 * sumn nx (fun i => (DR Z i * (x.[i] - (z_ref Z).[i])) * (DR Z i * (x.[i] - (z_ref Z).[i]))).
Definition penalty (x s : vec) (mu : R) : R :=
  z_rho Z * (l1 nc (fun i => (fn_c P x).[i]) + l1 nd (fun i => (fn_d P x).[i] - s.[i])) + reg x mu.
Definition resto_feasible (x : rv) (s : vec) : Prop :=
  (forall i, (i < nc)%nat -> 0 <= (r_nc x).[i] /\ 0 <= (r_pc x).[i] /\ (resto_c Z x).[i] = 0) /\
  (forall i, (i < nd)%nat -> 0 <= (r_nd x).[i] /\ 0 <= (r_pd x).[i] /\ (resto_d Z x).[i] = s.[i]).
Lemma obj_pen x mu : rv_ok nx nd nc x ->
  resto_f Z x mu = z_rho Z * (sumn nc (fun i => (r_nc x).[i] + (r_pc x).[i]) + sumn nd (fun i => (r_nd x).[i] + (r_pd x).[i])) + reg (r_x x) mu.
Proof.
  intros Hx. rewrite C75_objective by exact Hx. destruct Hx as (X1 & X2 & X3 & X4 & X5). unfold objective, reg, sum_of. rewrite X2, X3, X4, X5, !sumn_plus. ring.
Qed.
Theorem C75_l1_penalty : 0 <= z_rho Z -> forall xo s mu, length xo = nx -> length s = nd ->
  (forall x, rv_ok nx nd nc x -> r_x x = xo -> resto_feasible x s -> penalty xo s mu <= resto_f Z x mu) /\
  (exists x, rv_ok nx nd nc x /\ r_x x = xo /\ resto_feasible x s /\ penalty xo s mu = resto_f Z x mu).
Proof.
  intros RH xo s mu Lx Ls. split.
  - intros x Hx Ex [F1 F2]. rewrite (obj_pen x mu Hx), Ex. unfold penalty. apply Rplus_le_compat_r. apply Rmult_le_compat_l; [exact RH|].
    destruct (C75_constraints x Hx) as [[_ C] [_ D]]. rewrite Ex in C, D. apply Rplus_le_compat; apply sumn_le; intros i Hi.
    + destruct (F1 i Hi) as (N1 & N2 & E). rewrite C in E by exact Hi. unfold Rabs. destruct (Rcase_abs _); lra.
    + destruct (F2 i Hi) as (N1 & N2 & E). rewrite D in E by exact Hi. unfold Rabs. destruct (Rcase_abs _); lra.
  - set (nn f m := mk m (fun i => Rmax (- f i) 0)). set (pp f m := mk m (fun i => Rmax (f i) 0)).
    set (fc := fun i => (fn_c P xo).[i]). set (fd := fun i => (fn_d P xo).[i] - s.[i]).
    exists (RV xo (nn fc nc) (pp fc nc) (nn fd nd) (pp fd nd)).
    assert (OK : rv_ok nx nd nc (RV xo (nn fc nc) (pp fc nc) (nn fd nd) (pp fd nd))).
    { unfold rv_ok. cbn. unfold nn, pp. rewrite !mk_len. tauto. }
    assert (EN : forall f m i, (i < m)%nat -> (nn f m).[i] = Rmax (- f i) 0) by (intros f m i Hi; apply (mk_is m); exact Hi).
    assert (EP : forall f m i, (i < m)%nat -> (pp f m).[i] = Rmax (f i) 0) by (intros f m i Hi; apply (mk_is m); exact Hi).
    destruct (C75_constraints _ OK) as [[_ C] [_ D]]. cbn [r_x r_nc r_pc r_nd r_pd] in C, D.
    assert (MX : forall a, 0 <= Rmax (- a) 0 /\ 0 <= Rmax a 0 /\ a + Rmax (-a) 0 - Rmax a 0 = 0 /\ Rmax (-a) 0 + Rmax a 0 = Rabs a).
    { intros a. unfold Rmax, Rabs. destruct (Rle_dec (-a) 0), (Rle_dec a 0), (Rcase_abs a); lra. }
    splits; [exact OK|reflexivity| |].
    + unfold resto_feasible. cbn [r_nc r_pc r_nd r_pd]. split; intros i Hi; [rewrite C by exact Hi|rewrite D by exact Hi]; rewrite EN, EP by exact Hi.
      * destruct (MX (fc i)) as (M1 & M2 & M3 & _). splits; try assumption. 
      * destruct (MX (fd i)) as (M1 & M2 & M3 & _). splits; try assumption. unfold fd in *. lra.
    + rewrite (obj_pen _ mu OK). unfold penalty. cbn [r_x r_nc r_pc r_nd r_pd]. f_equal. f_equal. f_equal; apply sumn_ext; intros i Hi; rewrite EN, EP by exact Hi; symmetry; apply MX.
Qed.
End C75.
Example C75_nonvacuous : exists Z x v, nlp_ok (z_P Z) /\ length (z_ref Z) = n_x (z_P Z) /\ rv_ok (n_x (z_P Z)) (n_s (z_P Z)) (n_c (z_P Z)) x /\
  rv_ok (n_x (z_P Z)) (n_s (z_P Z)) (n_c (z_P Z)) v /\ jac_right (fn_d (z_P Z)) (fn_Jd (z_P Z)) (n_x (z_P Z)) (n_s (z_P Z)) (r_x x) /\
  hess_right Z (r_x x) [] [1] /\ resto_feasible Z x [2] /\ 0 < z_rho Z /\ n_s (z_P Z) = 1%nat.
Proof.
  exists (Resto (exP (fun x => x) (fun _ => 1) (fun _ => 0) [] []) 1000 1 (/2) [3]), (RV [3] [] [] [0] [1]), (RV [1] [] [] [1] [0]).
  cbn [z_P z_ref z_rho r_x]. splits; try reflexivity; try (apply exP_ok; constructor); try (unfold rv_ok; cbn; tauto); try lra.
  - intros v Hv i Hi. cbn in Hi. assert (i = O) as -> by lia. unfold Jv. cbn. apply (dlim_ext (fun t => 3 + t * v.[0])).
    + intros t. unfold vmove, mk. cbn. unfold el. cbn. reflexivity.
    + replace (0 + 1 * v.[0]) with v.[0] by ring. apply dlim_affine.
  - intros v Hv i Hi. cbn in Hi. assert (i = O) as -> by lia. unfold Jv, JTv. cbn. apply (dlim_ext (fun t => 1 + t * 0)).
    + intros t. ring.
    + match goal with |- derivable_pt_lim _ _ ?r => replace r with 0 by ring end. apply dlim_affine.
  - split; cbn; intros i Hi; [lia|]. assert (i = O) as -> by lia. unfold resto_d. cbn. unfold axpy, vmap2, mk, el. cbn. unfold el. cbn. lra.
Qed.

(** * C76: the starting point of the restoration phase *)
Section C76.
Variable Z : resto.
Notation P := (z_P Z). Notation nx := (n_x P). Notation nc := (n_c P). Notation nd := (n_s P).
Hypotheses (HP : nlp_ok P) (HR : length (z_ref Z) = nx).

Definition strictly_feasible (x : rv) (s : vec) : Prop :=
  (forall i, (i < nc)%nat -> 0 < (r_nc x).[i] /\ 0 < (r_pc x).[i] /\ (resto_c Z x).[i] = 0) /\
  (forall i, (i < nd)%nat -> 0 < (r_nd x).[i] /\ 0 < (r_pd x).[i] /\ (resto_d Z x).[i] = s.[i]).
(** the barrier function of the restoration problem without the terms for the bounds on x and s *)
Definition barrier (x : rv) (m mu : R) : R :=
  resto_f Z x m - mu * (sumn nc (fun i => ln (r_nc x).[i] + ln (r_pc x).[i]) + sumn nd (fun i => ln (r_nd x).[i] + ln (r_pd x).[i])).

Lemma amax_le v n i : length v = n -> (i < n)%nat -> Rabs v.[i] <= amax v.
Proof. intros L Hi. destruct (amax_is v n (fun i => v.[i]) (vis_self v n L)) as (_ & A & _). apply A. exact Hi. Qed.

(** n and p are positive, the constraints hold, the multipliers of n and p are on the central path, x and s are those of the
    current iterate, and the other bound multipliers are cut at rho *)
Theorem C76_starting_point : 0 < z_rho Z -> forall v cmu, 0 < cmu -> length (vx v) = nx -> length (vs v) = nd ->
  let r := resto_init Z v cmu in
  rv_ok nx nd nc (ri_x r) /\ r_x (ri_x r) = vx v /\ ri_s r = vs v /\ strictly_feasible (ri_x r) (vs v) /\
  (forall k, (0 < k < 5)%nat -> length (rpart k (ri_zL r)) = bdim Z k /\
     forall i, (i < bdim Z k)%nat -> (rpart k (ri_zL r)).[i] * (rpart k (ri_x r)).[i] = ri_mu r) /\
  (forall z z', In (z, z') [(vzL v, r_x (ri_zL r)); (vzU v, ri_zU r); (vvL v, ri_vL r); (vvU v, ri_vU r)] ->
     vec_is z' (length z) (fun i => Rmin (z_rho Z) z.[i])).
Proof.
  intros RP v cmu MP Lx Ls. cbv zeta. unfold resto_init. cbv zeta.
  pose proof (p_c _ HP _ Lx) as LC. pose proof (p_d _ HP _ Lx) as LD.
  set (c := fn_c P (vx v)) in *. set (dms := axpy (-1) (vs v) (fn_d P (vx v))).
  assert (VD : vec_is dms nd (fun i => (fn_d P (vx v)).[i] - (vs v).[i])).
  { eapply vis_ext; [apply axpy_is; [apply (vis_self _ _ Ls)|apply (vis_self _ _ LD)]|]. intros i _. cbv beta. ring. }
  set (mu := Rmax (Rmax cmu (amax c)) (amax dms)).
  assert (MU : 0 < mu). { unfold mu. pose proof (Rmax_l (Rmax cmu (amax c)) (amax dms)). pose proof (Rmax_l cmu (amax c)). lra. }
  destruct (split_is Z mu c nc LC) as [C1 C2]. destruct (split_is Z mu dms nd (proj1 VD)) as [D1 D2].
  destruct (split Z mu c) as [cn cp]. destruct (split Z mu dms) as [dn dp]. cbn [fst snd] in *.
  cbn [ri_x ri_s ri_mu ri_zL ri_zU ri_vL ri_vU r_x].
  assert (OK : rv_ok nx nd nc (RV (vx v) cn cp dn dp)).
  { unfold rv_ok. cbn. splits; [exact Lx|apply C1|apply C2|apply D1|apply D2]. }
  assert (SF : strictly_feasible (RV (vx v) cn cp dn dp) (vs v)).
  { destruct (C75_constraints Z HP _ OK) as [[_ RC] [_ RD]]. cbn [r_x r_nc r_pc r_nd r_pd] in RC, RD.
    destruct C1 as [_ C1], C2 as [_ C2], D1 as [_ D1], D2 as [_ D2]. unfold strictly_feasible. cbn [r_nc r_pc r_nd r_pd]. split; intros i Hi.
    - destruct (split_num mu (z_rho Z) c.[i] MU RP) as (S1 & S2 & _). rewrite RC, C2 by exact Hi. rewrite C1 by exact Hi. splits; [exact S1|exact S2|]. fold c. ring.
    - destruct (split_num mu (z_rho Z) dms.[i] MU RP) as (S1 & S2 & _). rewrite RD, D2 by exact Hi. rewrite D1 by exact Hi. splits; [exact S1|exact S2|].
      destruct VD as [_ VD]. rewrite VD by exact Hi. ring. }
  splits; try exact OK; try reflexivity; try exact SF.
  - assert (Q : forall u n, length u = n -> (forall i, (i < n)%nat -> 0 < u.[i]) -> length (vmap2 Rdiv (vset (dim u) mu) u) = n /\ forall i, (i < n)%nat -> (vmap2 Rdiv (vset (dim u) mu) u).[i] * u.[i] = mu).
    { intros u n Lu Pu. destruct (vmap2_is Rdiv (vset (dim u) mu) u n (fun _ => mu) (fun i => u.[i])) as [Q1 Q2].
      - unfold dim. rewrite Lu. apply vset_is.
      - apply vis_self. exact Lu.
      - split; [exact Q1|]. intros i Hi. rewrite Q2 by exact Hi. specialize (Pu i Hi). field. lra. }
    destruct SF as [S1 S2]. cbn [r_nc r_pc r_nd r_pd] in S1, S2. destruct OK as (_ & O1 & O2 & O3 & O4). cbn [r_nc r_pc r_nd r_pd] in O1, O2, O3, O4.
    intros k Hk. destruct k as [|[|[|[|[|k]]]]]; try lia; cbn [rpart bdim r_nc r_pc r_nd r_pd]; apply Q; try assumption; intros i Hi; first [apply S1|apply S2]; exact Hi.
  - intros z z' HI. assert (Q : vec_is (vmap2 Rmin (vset (dim z) (z_rho Z)) z) (length z) (fun i => Rmin (z_rho Z) z.[i])).
    { apply vmap2_is; [apply vset_is|apply vis_self; reflexivity]. }
    cbn [In] in HI. destruct HI as [E|[E|[E|[E|[]]]]]; inversion E; subst; exact Q.
Qed.
(** the barrier parameter is the largest of the current one and of the constraint violations *)
Theorem C76_barrier_parameter : forall v cmu, 0 <= cmu -> length (vx v) = nx -> length (vs v) = nd ->
  let mu := ri_mu (resto_init Z v cmu) in
  cmu <= mu /\ (forall i, (i < nc)%nat -> Rabs (fn_c P (vx v)).[i] <= mu) /\ (forall i, (i < nd)%nat -> Rabs ((fn_d P (vx v)).[i] - (vs v).[i]) <= mu) /\
  (mu = cmu \/ (exists i, (i < nc)%nat /\ mu = Rabs (fn_c P (vx v)).[i]) \/ (exists i, (i < nd)%nat /\ mu = Rabs ((fn_d P (vx v)).[i] - (vs v).[i]))).
Proof.
  intros v cmu MP Lx Ls. cbv zeta. unfold resto_init. cbv zeta. destruct (split Z _ _) as [cn cp]. destruct (split Z _ _) as [dn dp]. cbn [ri_mu].
  pose proof (p_c _ HP _ Lx) as LC. pose proof (p_d _ HP _ Lx) as LD.
  set (c := fn_c P (vx v)) in *. set (dms := axpy (-1) (vs v) (fn_d P (vx v))).
  assert (VD : vec_is dms nd (fun i => (fn_d P (vx v)).[i] - (vs v).[i])).
  { eapply vis_ext; [apply axpy_is; [apply (vis_self _ _ Ls)|apply (vis_self _ _ LD)]|]. intros i _. cbv beta. ring. }
  destruct (amax_is c nc (fun i => c.[i]) (vis_self c nc LC)) as (A0 & A1 & A2). destruct (amax_is dms nd _ VD) as (B0 & B1 & B2).
  pose proof (Rmax_l (Rmax cmu (amax c)) (amax dms)) as M1. pose proof (Rmax_r (Rmax cmu (amax c)) (amax dms)) as M2.
  pose proof (Rmax_l cmu (amax c)) as M3. pose proof (Rmax_r cmu (amax c)) as M4.
  splits; [lra|intros i Hi; specialize (A1 i Hi); cbv beta in A1; lra|intros i Hi; specialize (B1 i Hi); cbv beta in B1; lra|].
  destruct (Rle_dec (Rmax cmu (amax c)) (amax dms)) as [H|H].
  - rewrite (Rmax_right _ _ H). destruct B2 as [E0|(i & Hi & E)]; [left; lra|right; right; exists i; split; [exact Hi|exact E]].
  - rewrite (Rmax_left (Rmax cmu (amax c))) by lra. destruct (Rle_dec cmu (amax c)) as [H2|H2].
    + rewrite (Rmax_right _ _ H2). destruct A2 as [E0|(i & Hi & E)]; [left; lra|right; left; exists i; split; [exact Hi|exact E]].
    + left. apply Rmax_left. lra.
Qed.
(** for the given x and s, no other strictly feasible choice of n and p has a smaller value of the barrier function *)
Theorem C76_optimal_start : 0 < z_rho Z -> forall v cmu, 0 < cmu -> length (vx v) = nx -> length (vs v) = nd ->
  forall m x', rv_ok nx nd nc x' -> r_x x' = vx v -> strictly_feasible x' (vs v) ->
  barrier (ri_x (resto_init Z v cmu)) m (ri_mu (resto_init Z v cmu)) <= barrier x' m (ri_mu (resto_init Z v cmu)).
Proof.
  intros RP v cmu MP Lx Ls m x' Hx' Ex' [F1 F2]. pose proof (C76_starting_point RP v cmu MP Lx Ls) as ST. cbv zeta in ST.
  assert (ML : 0 < ri_mu (resto_init Z v cmu)) by (destruct (C76_barrier_parameter v cmu ltac:(lra) Lx Ls) as (H & _); lra).
  destruct ST as (OK & Ex & _ & [S1 S2] & _).
  assert (STA : forall i, ((i < nc)%nat -> ri_mu (resto_init Z v cmu) / (r_nc (ri_x (resto_init Z v cmu))).[i] + ri_mu (resto_init Z v cmu) / (r_pc (ri_x (resto_init Z v cmu))).[i] = 2 * z_rho Z)
     /\ ((i < nd)%nat -> ri_mu (resto_init Z v cmu) / (r_nd (ri_x (resto_init Z v cmu))).[i] + ri_mu (resto_init Z v cmu) / (r_pd (ri_x (resto_init Z v cmu))).[i] = 2 * z_rho Z)).
  { revert ML. unfold resto_init. cbv zeta. pose proof (p_c _ HP _ Lx) as LC. pose proof (p_d _ HP _ Lx) as LD.
    set (c := fn_c P (vx v)) in *. set (dms := axpy (-1) (vs v) (fn_d P (vx v))).
    assert (LDM : length dms = nd) by (apply (axpy_is (-1) (vs v) (fn_d P (vx v)) nd _ _ (vis_self _ _ Ls) (vis_self _ _ LD))).
    set (mu := Rmax (Rmax cmu (amax c)) (amax dms)).
    destruct (split_is Z mu c nc LC) as [[_ C1] [_ C2]]. destruct (split_is Z mu dms nd LDM) as [[_ D1] [_ D2]].
    destruct (split Z mu c) as [cn cp]. destruct (split Z mu dms) as [dn dp]. cbn [fst snd ri_x ri_mu r_nc r_pc r_nd r_pd] in *. intros ML i. split; intros Hi.
    - rewrite C2 by exact Hi. rewrite C1 by exact Hi. apply split_num; assumption.
    - rewrite D2 by exact Hi. rewrite D1 by exact Hi. apply split_num; assumption. }
  set (mu := ri_mu (resto_init Z v cmu)) in *. set (x := ri_x (resto_init Z v cmu)) in *. unfold barrier. rewrite (obj_pen Z HR x m OK), (obj_pen Z HR x' m Hx'), Ex, Ex'.
  destruct (C75_constraints Z HP x OK) as [[_ C] [_ D]]. destruct (C75_constraints Z HP x' Hx') as [[_ C'] [_ D']]. rewrite Ex in C, D. rewrite Ex' in C', D'.
  assert (SC : sumn nc (fun i => z_rho Z * ((r_nc x).[i] + (r_pc x).[i]) + - mu * (ln (r_nc x).[i] + ln (r_pc x).[i])) <= sumn nc (fun i => z_rho Z * ((r_nc x').[i] + (r_pc x').[i]) + - mu * (ln (r_nc x').[i] + ln (r_pc x').[i]))).
  { apply sumn_le. intros i Hi. destruct (S1 i Hi) as (A1 & A2 & A3). destruct (F1 i Hi) as (B1 & B2 & B3). rewrite C in A3 by exact Hi. rewrite C' in B3 by exact Hi.
    pose proof (split_opt mu (z_rho Z) (fn_c P (vx v)).[i] _ _ _ _ ML A1 A2 B1 B2 (proj1 (STA i) Hi) A3 B3). lra. }
  assert (SD : sumn nd (fun i => z_rho Z * ((r_nd x).[i] + (r_pd x).[i]) + - mu * (ln (r_nd x).[i] + ln (r_pd x).[i])) <= sumn nd (fun i => z_rho Z * ((r_nd x').[i] + (r_pd x').[i]) + - mu * (ln (r_nd x').[i] + ln (r_pd x').[i]))).
  { apply sumn_le. intros i Hi. destruct (S2 i Hi) as (A1 & A2 & A3). destruct (F2 i Hi) as (B1 & B2 & B3). rewrite D in A3 by exact Hi. rewrite D' in B3 by exact Hi.
    assert (A4 : ((fn_d P (vx v)).[i] - (vs v).[i]) + (r_nd x).[i] - (r_pd x).[i] = 0) by lra. assert (B4 : ((fn_d P (vx v)).[i] - (vs v).[i]) + (r_nd x').[i] - (r_pd x').[i] = 0) by lra.
    pose proof (split_opt mu (z_rho Z) ((fn_d P (vx v)).[i] - (vs v).[i]) _ _ _ _ ML A1 A2 B1 B2 (proj2 (STA i) Hi) A4 B4). lra. }
  rewrite !sumn_plus, !sumn_scal in SC, SD. rewrite !sumn_plus in *. lra.
Qed.
End C76.
Example C76_nonvacuous : exists Z v cmu, nlp_ok (z_P Z) /\ length (z_ref Z) = n_x (z_P Z) /\ 0 < z_rho Z /\ 0 < cmu /\ length (vx v) = n_x (z_P Z) /\
  length (vs v) = n_s (z_P Z) /\ (fn_d (z_P Z) (vx v)).[0] <> (vs v).[0].
Proof.
  exists (Resto (exP (fun x => x) (fun _ => 1) (fun _ => 0) [] []) 1000 1 (/2) [3]), (IV [3] [5] [] [] [] [] [] []), 1.
  cbn [z_P z_ref z_rho vx vs]. splits; try reflexivity; try lra; [apply exP_ok; constructor|]. cbn. lra.
Qed.

(** * C77: what PerformRestoration leaves behind *)
Section C77.
Context {L : Type}.
Variable asolve : L -> aarg -> av -> bool -> nat -> PdModel.status * av * L.
Variable inertia : L -> bool.
Variables (P : nlp) (W0 : mat) (viol pinf : iv -> R) (slack : bd -> iv -> vec) (o : propts).
Notation perform := (perform asolve inertia P W0 viol pinf slack o).
Notation nx := (n_x P). Notation ns := (n_s P). Notation nc := (n_c P).

Definition mults (v : iv) (b : bd) : vec := match b with XL => vzL v | XU => vzU v | SL => vvL v | SU => vvU v end.
(** the step of the multiplier of a bound with slacks s before and s' after that solves  z s + (s' - s) z + s dz = mu *)
Definition dual_step (z s s' : R) : R := (po_mu o + (s - s') * z) / s - z.
(** [a] is the largest step in [0, 1] that keeps every multiplier above (1 - tau) times its old value *)
Definition within (curr : iv) (dz : bd -> nat -> R) (a : R) : Prop :=
  forall b i, (i < length (pos P b))%nat -> (mults curr b).[i] + a * dz b i >= (1 - po_tau o) * (mults curr b).[i].

Lemma mult_step_is z s s' n : length z = n -> length s = n -> length s' = n -> vec_is (mult_step o z s s') n (fun i => dual_step z.[i] s.[i] s'.[i]).
Proof.
  intros L1 L2 L3. unfold mult_step. eapply vis_ext.
  - apply axpy_is; [apply (vis_self _ _ L1)|]. apply vmap2_is; [|apply (vis_self _ _ L2)]. apply vmap_is. apply emul_is; [|apply (vis_self _ _ L1)]. apply axpy_is; [apply (vis_self _ _ L3)|apply (vis_self _ _ L2)].
  - intros i _. cbv beta. unfold dual_step. replace (s.[i] + -1 * s'.[i]) with (s.[i] - s'.[i]) by ring. rewrite (Rplus_comm (_ * _) (po_mu o)). ring.
Qed.

Theorem C77_success : nlp_ok P -> mr W0 = nx /\ mc W0 = nx -> aug_exact P asolve -> 0 <= po_tau o < 1 ->
  forall square st rc curr trial l t c l',
  (forall b, length (mults curr b) = length (pos P b) /\ (forall i, (i < length (pos P b))%nat -> 0 < (mults curr b).[i]) /\
             forall v, length (slack b v) = length (pos P b)) ->
  (forall v, rc = Some v -> length (vx v) = nx /\ length (vs v) = ns) ->
  perform square st rc curr trial l = PrRes (PR_true t) c l' ->
  (* the restoration succeeded, the current iterate is unchanged, the trial point is the restored one *)
  st = ConvModel.SUCCESS /\ c = curr /\ (exists v, rc = Some v /\ vx t = vx v /\ vs t = vs v) /\
  (* all bound multipliers are positive: all one, or those of a step of the same length for all *)
  (forall b, length (mults t b) = length (pos P b) /\ forall i, (i < length (pos P b))%nat -> 0 < (mults t b).[i]) /\
  ((forall b i, (i < length (pos P b))%nat -> (mults t b).[i] = 1) \/
   (exists a t', vx t' = vx t /\ vs t' = vs t /\ 0 <= a <= 1 /\
      let dz b i := dual_step (mults curr b).[i] (slack b curr).[i] (slack b t').[i] in
      within curr dz a /\ (forall a', a < a' <= 1 -> ~ within curr dz a') /\
      forall b i, (i < length (pos P b))%nat -> (mults t b).[i] = (mults curr b).[i] + a * dz b i /\ (mults t b).[i] <= po_reset o)) /\
  (* the other multipliers are zero or least squares multipliers not larger than the limit *)
  length (vyc t) = nc /\ length (vyd t) = ns /\
  ((zeros (vyc t) /\ zeros (vyd t)) \/
   ((forall i, Rabs (vyc t).[i] <= po_yreset o) /\ (forall i, Rabs (vyd t).[i] <= po_yreset o) /\
    forall yc yd, length yc = nc -> length yd = ns -> lag_sq P t (vyc t) (vyd t) <= lag_sq P t yc yd)).
Proof.
  intros HP HW HA [T0 T1] square st rc curr trial l t c l' HC HV.
  assert (MAIN : forall v, rc = Some v -> forall t l', after_success asolve inertia P W0 slack o curr trial (vx v) (vs v) l = (t, l') ->
    vx t = vx v /\ vs t = vs v /\
    (forall b, length (mults t b) = length (pos P b) /\ forall i, (i < length (pos P b))%nat -> 0 < (mults t b).[i]) /\
    ((forall b i, (i < length (pos P b))%nat -> (mults t b).[i] = 1) \/
     (exists a t', vx t' = vx t /\ vs t' = vs t /\ 0 <= a <= 1 /\
      let dz b i := dual_step (mults curr b).[i] (slack b curr).[i] (slack b t').[i] in
      within curr dz a /\ (forall a', a < a' <= 1 -> ~ within curr dz a') /\
      forall b i, (i < length (pos P b))%nat -> (mults t b).[i] = (mults curr b).[i] + a * dz b i /\ (mults t b).[i] <= po_reset o)) /\
    length (vyc t) = nc /\ length (vyd t) = ns /\
    ((zeros (vyc t) /\ zeros (vyd t)) \/
     ((forall i, Rabs (vyc t).[i] <= po_yreset o) /\ (forall i, Rabs (vyd t).[i] <= po_yreset o) /\
      forall yc yd, length yc = nc -> length yd = ns -> lag_sq P t (vyc t) (vyd t) <= lag_sq P t yc yd))).
  { clear t l'. intros v Ev t l' AS. destruct (HV v Ev) as [LX LS]. unfold after_success in AS. cbv zeta in AS.
    set (t' := IV (vx v) (vs v) (vyc trial) (vyd trial) (vzL trial) (vzU trial) (vvL trial) (vvU trial)) in AS.
    set (dz := fun b i => dual_step (mults curr b).[i] (slack b curr).[i] (slack b t').[i]).
    assert (DZ : forall b, vec_is (mult_step o (mults curr b) (slack b curr) (slack b t')) (length (pos P b)) (dz b)).
    { intros b. destruct (HC b) as (H1 & H2 & H3). apply mult_step_is; [exact H1|apply H3|apply H3]. }
    assert (FR : forall b, frok (po_tau o) (frac_to_bound (mults curr b) (mult_step o (mults curr b) (slack b curr) (slack b t')) (po_tau o)) (length (pos P b)) (fun i => (mults curr b).[i]) (dz b)).
    { intros b. destruct (HC b) as (H1 & H2 & H3). apply frok_is; [apply vis_self; exact H1|apply DZ|exact T0|]. intros k Hk. specialize (H2 k Hk). lra. }
    pose proof (FR XL) as [F1 G1]. pose proof (FR XU) as [F2 G2]. pose proof (FR SL) as [F3 G3]. pose proof (FR SU) as [F4 G4].
    pose proof (DZ XL) as Z1. pose proof (DZ XU) as Z2. pose proof (DZ SL) as Z3. pose proof (DZ SU) as Z4. cbn [mults] in *. clear FR DZ.
    set (a1 := frac_to_bound (vzL curr) _ _) in *. set (a2 := frac_to_bound (vzU curr) _ _) in *.
    set (a3 := frac_to_bound (vvL curr) _ _) in *. set (a4 := frac_to_bound (vvU curr) _ _) in *.
    set (a := Rmin (Rmin (Rmin a1 a2) a3) a4) in *.
    assert (LE : forall u, u <= a <-> u <= a1 /\ u <= a2 /\ u <= a3 /\ u <= a4) by (intros u; unfold a; rewrite !Rmin_iff; tauto).
    assert (AR : 0 <= a <= 1) by (split; [apply LE; lra|pose proof (proj1 (LE a) (Rle_refl a)); lra]).
    assert (WI : forall u, 0 <= u <= 1 -> (within curr dz u <-> u <= a)).
    { intros u Hu. rewrite LE. unfold within. split.
      - intros W. splits; [apply G1|apply G2|apply G3|apply G4]; try exact Hu; intros i Hi; [apply (W XL i Hi)|apply (W XU i Hi)|apply (W SL i Hi)|apply (W SU i Hi)].
      - intros (U1 & U2 & U3 & U4) b. destruct b; intros i Hi; cbn [mults]; [apply (proj2 (G1 u Hu) U1 i Hi)|apply (proj2 (G2 u Hu) U2 i Hi)|apply (proj2 (G3 u Hu) U3 i Hi)|apply (proj2 (G4 u Hu) U4 i Hi)]. }
    set (z1 := axpy a (mult_step o (vzL curr) (slack XL curr) (slack XL t')) (vzL curr)) in *.
    set (z2 := axpy a (mult_step o (vzU curr) (slack XU curr) (slack XU t')) (vzU curr)) in *.
    set (z3 := axpy a (mult_step o (vvL curr) (slack SL curr) (slack SL t')) (vvL curr)) in *.
    set (z4 := axpy a (mult_step o (vvU curr) (slack SU curr) (slack SU t')) (vvU curr)) in *.
    assert (V1 : vec_is z1 (length (pos P XL)) (fun i => (vzL curr).[i] + a * dz XL i)) by (unfold z1; apply axpy_is; [exact Z1|apply vis_self; apply (HC XL)]).
    assert (V2 : vec_is z2 (length (pos P XU)) (fun i => (vzU curr).[i] + a * dz XU i)) by (unfold z2; apply axpy_is; [exact Z2|apply vis_self; apply (HC XU)]).
    assert (V3 : vec_is z3 (length (pos P SL)) (fun i => (vvL curr).[i] + a * dz SL i)) by (unfold z3; apply axpy_is; [exact Z3|apply vis_self; apply (HC SL)]).
    assert (V4 : vec_is z4 (length (pos P SU)) (fun i => (vvU curr).[i] + a * dz SU i)) by (unfold z4; apply axpy_is; [exact Z4|apply vis_self; apply (HC SU)]).
    set (mx := Rmax (Rmax (Rmax (amax z1) (amax z2)) (amax z3)) (amax z4)) in *.
    match type of AS with least_square_mults _ _ _ _ _ _ ?u _ = _ => set (t1 := u) in * end.
    assert (T : vx t1 = vx v /\ vs t1 = vs v /\ (forall b, length (mults t1 b) = length (pos P b) /\ forall i, (i < length (pos P b))%nat -> 0 < (mults t1 b).[i]) /\
      ((forall b i, (i < length (pos P b))%nat -> (mults t1 b).[i] = 1) \/
       (forall b i, (i < length (pos P b))%nat -> (mults t1 b).[i] = (mults curr b).[i] + a * dz b i /\ (mults t1 b).[i] <= po_reset o))).
    { unfold t1. destruct (Rlt_dec (po_reset o) mx) as [B|B].
      - destruct (vset_is (dim z1) 1) as [Q1 W1], (vset_is (dim z2) 1) as [Q2 W2], (vset_is (dim z3) 1) as [Q3 W3], (vset_is (dim z4) 1) as [Q4 W4].
        unfold dim in *. rewrite (proj1 V1) in *. rewrite (proj1 V2) in *. rewrite (proj1 V3) in *. rewrite (proj1 V4) in *.
        assert (ON : forall b i, (i < length (pos P b))%nat -> (mults (IV (vx v) (vs v) (vyc trial) (vyd trial) (vset (length (pos P XL)) 1) (vset (length (pos P XU)) 1) (vset (length (pos P SL)) 1) (vset (length (pos P SU)) 1)) b).[i] = 1).
        { intros b i Hi. destruct b; cbn [mults vzL vzU vvL vvU]; auto. }
        splits; [reflexivity|reflexivity| |left; exact ON]. intros b. split; [destruct b; cbn [mults vzL vzU vvL vvU]; assumption|]. intros i Hi. rewrite ON by exact Hi. lra.
      - assert (EL : forall b i, (i < length (pos P b))%nat -> (mults (IV (vx v) (vs v) (vyc trial) (vyd trial) z1 z2 z3 z4) b).[i] = (mults curr b).[i] + a * dz b i /\ (mults (IV (vx v) (vs v) (vyc trial) (vyd trial) z1 z2 z3 z4) b).[i] <= po_reset o).
        { assert (MXB : amax z1 <= mx /\ amax z2 <= mx /\ amax z3 <= mx /\ amax z4 <= mx).
          { unfold mx. pose proof (Rmax_l (Rmax (Rmax (amax z1) (amax z2)) (amax z3)) (amax z4)). pose proof (Rmax_r (Rmax (Rmax (amax z1) (amax z2)) (amax z3)) (amax z4)).
            pose proof (Rmax_l (Rmax (amax z1) (amax z2)) (amax z3)). pose proof (Rmax_r (Rmax (amax z1) (amax z2)) (amax z3)). pose proof (Rmax_l (amax z1) (amax z2)). pose proof (Rmax_r (amax z1) (amax z2)). lra. }
          assert (AB : forall z n i, length z = n -> (i < n)%nat -> z.[i] <= amax z) by (intros z n i Lz Hi; pose proof (amax_le z n i Lz Hi); pose proof (Rle_abs z.[i]); lra).
          intros b i Hi. destruct b; cbn [mults vzL vzU vvL vvU]; (split; [first [apply V1|apply V2|apply V3|apply V4]; exact Hi|]).
          - pose proof (AB z1 _ i (proj1 V1) Hi). lra.
          - pose proof (AB z2 _ i (proj1 V2) Hi). lra.
          - pose proof (AB z3 _ i (proj1 V3) Hi). lra.
          - pose proof (AB z4 _ i (proj1 V4) Hi). lra. }
        splits; [reflexivity|reflexivity| |right; exact EL]. intros b. split; [destruct b; cbn [mults vzL vzU vvL vvU]; [apply V1|apply V2|apply V3|apply V4]|].
        intros i Hi. destruct (EL b i Hi) as [-> _]. destruct (HC b) as (_ & H2 & _). specialize (H2 i Hi). pose proof (proj2 (WI a AR) (Rle_refl a) b i Hi) as W. nra. }
    destruct T as (TX & TS & TM & TC).
    assert (PO : point_ok P t1).
    { unfold point_ok. rewrite TX, TS. splits; [exact LX|exact LS|apply (TM XL)|apply (TM XU)|apply (TM SL)|apply (TM SU)]. }
    pose proof (C70_least_squares_multipliers asolve inertia P W0 HP HW HA (po_calc o) (po_yreset o) t1 l PO) as C70. cbv zeta in C70. rewrite AS in C70. cbn [fst] in C70.
    destruct C70 as ((E1 & E2 & E3 & E4 & E5 & E6) & LY1 & LY2 & YY).
    assert (MM : forall b, mults t b = mults t1 b) by (intros b; destruct b; assumption).
    assert (LG : forall yc yd, lag_sq P t yc yd = lag_sq P t1 yc yd) by (intros yc yd; unfold lag_sq; rewrite E1, E3, E4, E5, E6; reflexivity).
    splits; [congruence|congruence|intros b; rewrite MM; apply TM| |exact LY1|exact LY2|].
    - destruct TC as [TC|TC]; [left; intros b i Hi; rewrite MM; apply TC; exact Hi|right]. exists a, t'. cbv zeta. change (fun b i => dual_step (mults curr b).[i] (slack b curr).[i] (slack b t').[i]) with dz.
      splits; [unfold t'; cbn; congruence|unfold t'; cbn; congruence|apply AR|apply AR|..].
      + apply WI; [exact AR|lra].
      + intros a' Ha W. apply WI in W; lra.
      + intros b i Hi. rewrite MM. apply TC. exact Hi.
    - destruct YY as [YY|(Y1 & Y2 & Y3)]; [left; exact YY|right]. splits; [exact Y1|exact Y2|]. intros yc yd K1 K2. rewrite !LG. apply Y3; assumption. }
  unfold RstModel.perform. destruct st; try (intros H; discriminate H).
  - destruct rc as [v|]; [|intros H; discriminate H]. destruct (square && _); [intros H; discriminate H|].
    destruct (after_success _ _ _ _ _ _ _ _ _ _ _) as [t0 l0] eqn:AS. intros H. inversion H; subst t0 c l0.
    destruct (MAIN v eq_refl t l' AS) as (M1 & M2 & M3). splits; try reflexivity; [exists v; splits; [reflexivity|exact M1|exact M2]|..]; apply M3.
  - destruct (square && _); [intros H; discriminate H|]. destruct (Rle_dec _ _); intros H; discriminate H.
Qed.

(** without success the current iterate of the original problem is the last iterate of the restoration phase (if it has one) *)
Theorem C77_failure_returns_iterate : forall square st rc curr trial l r, perform square st rc curr trial l = r -> st <> ConvModel.SUCCESS ->
  pr_curr r = match rc with Some v => v | None => curr end /\ pr_l r = l /\ (forall t, pr_o r <> PR_true t).
Proof.
  intros square st rc curr trial l r <- N. unfold RstModel.perform. destruct st; try contradiction; cbn [pr_curr pr_l pr_o]; try (splits; try reflexivity; intros t H; discriminate H).
  - destruct (square && _); cbn [pr_curr pr_l pr_o]; [|destruct (Rle_dec _ _)]; cbn [pr_curr pr_l pr_o]; splits; try reflexivity; intros t H; discriminate H.
Qed.
(** what an exception says about the current iterate afterwards *)
Theorem C77_exceptions : forall square st rc curr trial l e c l', perform square st rc curr trial l = PrRes (PR_throw e) c l' ->
  (e = ConvModel.EX_RESTO_FEASIBLE -> pinf c <= po_thr o /\ (st = ConvModel.STOP_AT_TINY_STEP \/ st = ConvModel.STOP_AT_ACCEPTABLE_POINT)) /\
  (e = ConvModel.EX_LOCALLY_INFEASIBLE -> st = ConvModel.LOCAL_INFEASIBILITY \/
     (pinf c > po_thr o /\ (st = ConvModel.STOP_AT_TINY_STEP \/ st = ConvModel.STOP_AT_ACCEPTABLE_POINT))) /\
  (e = ConvModel.EX_FEASIBILITY_PROBLEM_SOLVED -> square = true /\
     ((st = ConvModel.STOP_AT_ACCEPTABLE_POINT /\ viol c < po_tol o) \/ (st = ConvModel.SUCCESS /\ viol curr <= po_tol o))) /\
  (e = ConvModel.EX_RESTO_MAXITER <-> st = ConvModel.MAXITER_EXCEEDED) /\ (e = ConvModel.EX_RESTO_CPUTIME <-> st = ConvModel.CPUTIME_EXCEEDED) /\
  (e = ConvModel.EX_RESTO_WALLTIME <-> st = ConvModel.WALLTIME_EXCEEDED) /\ (e = ConvModel.EX_RESTO_USER_STOP <-> st = ConvModel.USER_REQUESTED_STOP) /\
  (e = ConvModel.EX_RESTO_FAILED <-> st = ConvModel.RESTORATION_FAILURE \/ st = ConvModel.ERROR_IN_STEP_COMPUTATION).
Proof.
  intros square st rc curr trial l e c l'. unfold RstModel.perform.
  assert (D : forall (a b : R), (if Rle_dec a b then true else false) = true -> a <= b) by (intros a b; destruct (Rle_dec a b); [intros _; assumption|discriminate]).
  assert (D2 : forall (a b : R), (if Rlt_dec a b then true else false) = true -> a < b) by (intros a b; destruct (Rlt_dec a b); [intros _; assumption|discriminate]).
  destruct st; try (intros H; inversion H; subst; clear H; splits; try (intros X; discriminate X); try (split; intros X; try discriminate X; try (destruct X as [X|X]; discriminate X); auto); auto; fail);
    try (intros H; discriminate H).
  - destruct rc as [v|]; [|intros H; discriminate H]. destruct (square && _) eqn:B.
    + apply andb_true_iff in B as [B1 B2]. apply D in B2. intros H; inversion H; subst; clear H. splits; try (intros X; discriminate X); try (split; intros X; try discriminate X; destruct X as [X|X]; discriminate X); auto.
    + destruct (after_success _ _ _ _ _ _ _ _ _ _ _). intros H; discriminate H.
  - destruct (Rle_dec _ _) as [B|B]; intros H; inversion H; subst; clear H; splits; try (intros X; discriminate X); try (split; intros X; try discriminate X; destruct X as [X|X]; discriminate X); auto.
    intros _. right. split; [lra|auto].
  - destruct (square && _) eqn:B.
    + apply andb_true_iff in B as [B1 B2]. apply D2 in B2. intros H; inversion H; subst; clear H. splits; try (intros X; discriminate X); try (split; intros X; try discriminate X; destruct X as [X|X]; discriminate X); auto.
    + destruct (Rle_dec _ _) as [B0|B0]; intros H; inversion H; subst; clear H; splits; try (intros X; discriminate X); try (split; intros X; try discriminate X; destruct X as [X|X]; discriminate X); auto.
      intros _. right. split; [lra|auto].
Qed.
(** every failure of the restoration phase with a reason of its own is reported as such; only a failed evaluation and the codes that
    the algorithm does not return otherwise make PerformRestoration return false *)
Theorem C77_return_false : forall square st rc curr trial l c l', perform square st rc curr trial l = PrRes PR_false c l' -> rc <> None \/ st <> ConvModel.SUCCESS ->
  In st [ConvModel.INVALID_NUMBER_DETECTED; ConvModel.FEASIBLE_POINT_FOUND; ConvModel.DIVERGING_ITERATES; ConvModel.TOO_FEW_DEGREES_OF_FREEDOM;
         ConvModel.INVALID_OPTION; ConvModel.OUT_OF_MEMORY; ConvModel.INTERNAL_ERROR; ConvModel.UNASSIGNED].
Proof.
  intros square st rc curr trial l c l' H N. unfold RstModel.perform in H. destruct st; cbn [In]; try tauto; try discriminate H; exfalso.
  - destruct rc as [v|]; [|destruct N as [N|N]; apply N; reflexivity]. destruct (square && _); [discriminate H|]. destruct (after_success _ _ _ _ _ _ _ _ _ _ _). discriminate H.
  - destruct (square && _); [discriminate H|]. destruct (Rle_dec _ _); discriminate H.
Qed.
End C77.

(** "square problem solved" is decided, after a successful restoration, by the violation at the point where the restoration was called, not at the
    restored one: it is reported for a point that violates the tolerance, and not reported for one that meets it *)
Definition ex_iv (x : R) : iv := IV [x] [] [] [] [] [] [] [].
Definition ex_o : propts := PrO 1 1 1000 0 false (/2) 1.
Definition ex_viol (v : iv) : R := Rabs (vx v).[0].
Theorem C77_square_refuted : let pf := perform cramer (fun _ => true) (exP (fun x => x) (fun _ => 1) (fun _ => 0) [] []) exW0 ex_viol ex_viol (fun _ _ => []) ex_o true ConvModel.SUCCESS in
  (exists rc curr c, pf (Some rc) curr curr tt = PrRes (PR_throw ConvModel.EX_FEASIBILITY_PROBLEM_SOLVED) c tt /\ ex_viol c > po_tol ex_o) /\
  (exists rc curr t c, pf (Some rc) curr curr tt = PrRes (PR_true t) c tt /\ ex_viol rc <= po_tol ex_o).
Proof.
  cbv zeta. split.
  - exists (ex_iv 5), (ex_iv 0). eexists. split.
    + unfold perform. destruct (Rle_dec (ex_viol (ex_iv 0)) (po_tol ex_o)) as [_|N]; [reflexivity|]. exfalso. apply N. unfold ex_viol. cbn. rewrite Rabs_R0. lra.
    + unfold ex_viol. cbn. rewrite Rabs_right; lra.
  - exists (ex_iv 0), (ex_iv 5). 
    assert (E : exists t, after_success cramer (fun _ => true) (exP (fun x => x) (fun _ => 1) (fun _ => 0) [] []) exW0 (fun _ _ => []) ex_o (ex_iv 5) (ex_iv 5) (vx (ex_iv 0)) (vs (ex_iv 0)) tt = (t, tt)).
    { unfold after_success, least_square_mults. cbv zeta. cbn [n_c n_x exP Nat.eqb po_calc ex_o andb]. eexists. reflexivity. }
    destruct E as [t E]. exists t, (ex_iv 5). split.
    + unfold perform. destruct (Rle_dec (ex_viol (ex_iv 5)) (po_tol ex_o)) as [N|_]; [exfalso; unfold ex_viol in N; cbn in N; rewrite Rabs_right in N; lra|]. cbn [andb]. rewrite E. reflexivity.
    + unfold ex_viol. cbn. rewrite Rabs_R0. lra.
Qed.
Example C77_nonvacuous : let P := exP (fun x => x) (fun _ => 1) (fun _ => 0) [O] [] in let curr := IV [1] [1] [] [0] [2] [] [] [] in
  let sl := fun (b : bd) (v : iv) => match b with XL => [(vx v).[0]] | _ => [] end in
  nlp_ok P /\ aug_exact P cramer /\ 0 <= po_tau ex_o < 1 /\
  (forall b, length (mults curr b) = length (pos P b) /\ (forall i, (i < length (pos P b))%nat -> 0 < (mults curr b).[i]) /\ forall v, length (sl b v) = length (pos P b)) /\
  exists t c, perform cramer (fun _ => true) P exW0 ex_viol ex_viol sl ex_o false ConvModel.SUCCESS (Some (IV [3] [3] [] [] [] [] [] [])) curr curr tt = PrRes (PR_true t) c tt.
Proof.
  cbv zeta. splits; [apply exP_ok; repeat constructor|apply cramer_exact|cbn; lra|cbn; lra| |].
  - intros b. destruct b; cbn; splits; try reflexivity; intros i Hi; try lia. assert (i = O) as -> by lia. lra.
  - unfold perform. cbn [andb]. match goal with |- context [after_success ?a ?b ?c ?d ?e ?f ?g ?h ?i ?j ?k] => assert (E : exists t, after_success a b c d e f g h i j k = (t, tt)) end.
    { unfold after_success, least_square_mults. cbv zeta. cbn [n_c n_x exP Nat.eqb po_calc ex_o andb]. eexists. reflexivity. }
    destruct E as [t ->]. eauto.
Qed.

Print Assumptions C74_solution.
Print Assumptions C74_no_other_solution.
Print Assumptions C74_D_d_refuted.
Print Assumptions C74_hessian_factor_refuted.
Print Assumptions C75_objective.
Print Assumptions C75_gradient.
Print Assumptions C75_constraints.
Print Assumptions C75_jacobians.
Print Assumptions C75_transposed.
Print Assumptions C75_hessian.
Print Assumptions C75_l1_penalty.
Print Assumptions C76_starting_point.
Print Assumptions C76_barrier_parameter.
Print Assumptions C76_optimal_start.
Print Assumptions C77_success.
Print Assumptions C77_failure_returns_iterate.
Print Assumptions C77_exceptions.
Print Assumptions C77_return_false.
Print Assumptions C77_square_refuted.
