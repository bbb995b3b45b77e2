(** C33, C48, C49: problem scaling. *)
From Coq Require Import List Bool Arith Lia ZArith Reals Lra.
From Flocq Require Import Core BinarySingleNaN.
From Verif Require Import Num VecModel ScalModel ScalSpec ScalProofs ScalErr ScalGrad.
Import ListNotations.
Local Open Scope R_scope.

(** ** C33 round trips *)
Lemma trip_md lg n d v : okfac n d -> length v = n -> vdiv (R_ops lg) d (vmul (R_ops lg) d v) = v.
Proof.
  intros K L. apply list_eq_nth.
  - rewrite (vdiv_len lg n); auto. apply vmul_len; auto.
  - intros j J. rewrite (vdiv_len lg n) in J; auto; [|apply vmul_len; auto].
    rewrite (vdiv_nth lg n), (vmul_nth lg n); auto; [|apply vmul_len; auto]. field. apply (fac_nz n); auto.
Qed.
Lemma trip_dm lg n d v : okfac n d -> length v = n -> vmul (R_ops lg) d (vdiv (R_ops lg) d v) = v.
Proof.
  intros K L. apply list_eq_nth.
  - rewrite (vmul_len lg n); auto. apply vdiv_len; auto.
  - intros j J. rewrite (vmul_len lg n) in J; auto; [|apply vdiv_len; auto].
    rewrite (vmul_nth lg n), (vdiv_nth lg n); auto; [|apply vdiv_len; auto]. field. apply (fac_nz n); auto.
Qed.

(** Scaling and unscaling variables, constraint values, objective values and
    objective gradients are inverse to each other. *)
Theorem C33_round_trips : forall lg n mc md s, okscal n mc md s ->
  let O := R_ops lg in
  (forall x, length x = n -> unapply_x O s (apply_x O s x) = x /\ apply_x O s (unapply_x O s x) = x) /\
  (forall c, length c = mc -> unapply_c O s (apply_c O s c) = c /\ apply_c O s (unapply_c O s c) = c) /\
  (forall d, length d = md -> unapply_d O s (apply_d O s d) = d /\ apply_d O s (unapply_d O s d) = d) /\
  (forall f, unapply_obj O s (apply_obj O s f) = f /\ apply_obj O s (unapply_obj O s f) = f) /\
  (forall g, length g = n -> unapply_grad O s (apply_grad O s g) = g /\ apply_grad O s (unapply_grad O s g) = g).
Proof.
  intros lg n mc md s K O. subst O. destruct K as (Kf & Kx & Kc & Kd). repeat split.
  - apply (trip_md lg n); auto.
  - apply (trip_dm lg n); auto.
  - apply (trip_md lg mc); auto.
  - apply (trip_dm lg mc); auto.
  - apply (trip_md lg md); auto.
  - apply (trip_dm lg md); auto.
  - unfold unapply_obj, apply_obj. cbn [R_ops tdiv tmul]. field. auto.
  - unfold unapply_obj, apply_obj. cbn [R_ops tdiv tmul]. field. auto.
  - assert (L : length (vdiv (R_ops lg) (sx s) g) = n) by (apply vdiv_len; auto).
    apply list_eq_nth.
    + unfold unapply_grad, apply_grad, apply_x, unapply_x. rewrite vscal_len. rewrite (vmul_len lg n); auto. rewrite vscal_len; auto.
    + intros j J. unfold unapply_grad, apply_grad, apply_x, unapply_x in *. rewrite vscal_len in J. rewrite (vmul_len lg n) in J; auto; [|rewrite vscal_len; auto].
      rewrite vscal_nth, (vmul_nth lg n), vscal_nth, (vdiv_nth lg n); auto; [|rewrite vscal_len; auto].
      unfold unapply_obj, apply_obj. cbn [R_ops tdiv tmul t1]. field. split; auto. apply (fac_nz n); auto.
  - assert (L : length (vmul (R_ops lg) (sx s) g) = n) by (apply vmul_len; auto).
    apply list_eq_nth.
    + unfold unapply_grad, apply_grad, apply_x, unapply_x. rewrite vscal_len. rewrite (vdiv_len lg n); auto. rewrite vscal_len; auto.
    + intros j J. unfold unapply_grad, apply_grad, apply_x, unapply_x in *. rewrite vscal_len in J. rewrite (vdiv_len lg n) in J; auto; [|rewrite vscal_len; auto].
      rewrite vscal_nth, (vdiv_nth lg n), vscal_nth, (vmul_nth lg n); auto; [|rewrite vscal_len; auto].
      unfold unapply_obj, apply_obj. cbn [R_ops tdiv tmul t1]. field. split; auto. apply (fac_nz n); auto.
Qed.

(** The values handed to finalize_solution are those of the user's functions at the
    returned point. *)
Theorem C33_returned_values : forall lg n mc md s p x, okscal n mc md s -> shape n mc md p -> length x = n ->
  let O := R_ops lg in
  fin_obj O s (s_f O s p x) = n_f p (fin_x O s x) /\
  fin_c O s (s_c O s p x) = n_c p (fin_x O s x) /\
  fin_d O s (s_d O s p x) = n_d p (fin_x O s x).
Proof.
  intros lg n mc md s p x K SH L O. subst O. repeat split.
  - unfold fin_obj, s_f, unapply_obj, apply_obj, fin_x. cbn [R_ops tdiv tmul]. field. apply K.
  - apply (uc_back lg n mc md); auto.
  - apply (ud_back lg n mc md); auto.
Qed.

(** ** C33 derivatives: what the algorithm uses as gradient, Jacobians and Hessian of
    the Lagrangian are the derivatives of the functions it evaluates. *)
Theorem C33_gradient_of_scaled_objective : forall lg n mc md s p x, okscal n mc md s -> shape n mc md p -> length x = n ->
  let O := R_ops lg in
  is_gradient (n_f p) (fin_x O s x) (n_grad p (fin_x O s x)) -> is_gradient (s_f O s p) x (s_grad O s p x).
Proof. intros lg n mc md s p x K SH L O. apply (scaled_gradient lg n mc md); auto. Qed.
Theorem C33_jacobian_of_scaled_constraints : forall lg n mc md s p x, okscal n mc md s -> shape n mc md p -> length x = n ->
  let O := R_ops lg in
  (is_jacobian (n_c p) (fin_x O s x) (rows_times (n_jc p (fin_x O s x))) -> is_jacobian (s_c O s p) x (jc_mult O s p x)) /\
  (is_jacobian (n_d p) (fin_x O s x) (rows_times (n_jd p (fin_x O s x))) -> is_jacobian (s_d O s p) x (jd_mult O s p x)).
Proof. intros lg n mc md s p x K SH L O. split; [apply (scaled_jac_c lg n mc md)|apply (scaled_jac_d lg n mc md)]; auto. Qed.
Theorem C33_hessian_of_scaled_lagrangian : forall lg n mc md s p x obj yc yd,
  okscal n mc md s -> shape n mc md p -> length x = n -> length yc = mc -> length yd = md ->
  let O := R_ops lg in
  (* for all factors, n_h is the derivative of the gradient of the user's Lagrangian *)
  (forall o lc ld, length lc = mc -> length ld = md ->
     is_derivative_of_gradient n (lag_grad p o lc ld) (fin_x O s x) (rows_times (n_h p (fin_x O s x) o lc ld))) ->
  is_derivative_of_gradient n
    (fun u j => obj * nth j (s_grad O s p u) 0 + nth j (jc_tmult O s p u yc) 0 + nth j (jd_tmult O s p u yd) 0) x
    (h_mult O s p x obj yc yd).
Proof.
  intros lg n mc md s p x obj yc yd K SH L Lc Ld O H. apply (scaled_hessian lg n mc md); auto. apply H.
  - apply vmul_len; auto. apply K.
  - apply vmul_len; auto. apply K.
Qed.

Lemma dotp_add a b v : length a = length b -> length a = length v -> dotp v (map2 Rplus a b) = dotp v a + dotp v b.
Proof.
  revert b v. induction a as [|x a IH]; intros [|y b] [|w v] H H'; cbn in *; try discriminate; unfold dotp; cbn [map2 fold_right]; [ring|].
  unfold dotp in IH. rewrite IH by lia. ring.
Qed.
Lemma dotp_sym a b : dotp a b = dotp b a.
Proof. unfold dotp. revert b. induction a as [|x a IH]; intros [|y b]; cbn [map2 fold_right]; auto. rewrite IH. ring. Qed.
Lemma tprod_row_step n r A y ys v : length r = n -> length v = n ->
  dotp v (map (tprod (r :: A) (y :: ys)) (seq 0 n)) = y * dotp r v + dotp v (map (tprod A ys) (seq 0 n)).
Proof.
  intros Lr Lv. replace (map (tprod (r :: A) (y :: ys)) (seq 0 n)) with (map2 Rplus (map (Rmult y) r) (map (tprod A ys) (seq 0 n))).
  - rewrite dotp_add by (rewrite !map_length, ?seq_length; congruence). f_equal. rewrite dotp_sym, dotp_scal. reflexivity.
  - apply list_eq_nth; [rewrite map2_len; rewrite !map_length, ?seq_length; auto|].
    intros j J. rewrite map2_len in J by (rewrite !map_length, ?seq_length; auto). rewrite map_length in J.
    rewrite map2_nth0 by (try ring; rewrite !map_length, ?seq_length; auto).
    rewrite !nth_seq_map by lia. rewrite nth_map0 by ring. unfold tprod, dotp. cbn [map map2 fold_right]. reflexivity.
Qed.
Lemma adjoint n : forall A y v, Forall (fun r => length r = n) A -> length y = length A -> length v = n ->
  dotp (map (fun r => dotp r v) A) y = dotp v (map (tprod A y) (seq 0 n)).
Proof.
  induction A as [|r A IH]; intros [|y ys] v F L Lv; cbn in L; try discriminate.
  - assert (Z : forall l, dotp v (map (tprod [] []) l) = 0).
    { intros l. clear. revert l. induction v as [|w v IH]; intros [|k l]; try reflexivity.
      unfold dotp in *. cbn [map map2 fold_right]. rewrite IH. unfold tprod, dotp. cbn [map map2 fold_right]. ring. }
    cbn [map]. rewrite Z. reflexivity.
  - inversion F as [|? ? Hr HF]. rewrite (tprod_row_step n) by auto. rewrite <- IH by (auto; lia). unfold dotp. cbn [map map2 fold_right]. ring.
Qed.
(** Products with the transposed scaled Jacobian are those of the transpose. *)
Theorem C33_transposed_products : forall lg n mc md s p x v yc yd,
  okscal n mc md s -> shape n mc md p -> length x = n -> length v = n -> length yc = mc -> length yd = md ->
  let O := R_ops lg in
  dotp (jc_mult O s p x v) yc = dotp v (jc_tmult O s p x yc) /\ dotp (jd_mult O s p x v) yd = dotp v (jd_tmult O s p x yd).
Proof.
  intros lg n mc md s p x v yc yd K SH L Lv Lc Ld O. subst O. pose proof K as (Kf & Kx & Kc & Kd).
  destruct (SH (unapply_x (R_ops lg) s x) (ux_len lg n mc md s K x L)) as (_ & _ & A1 & A2 & _ & B1 & B2 & _).
  pose proof (ux_len lg n mc md s K v Lv) as Lu. split.
  - transitivity (dotp (map (fun r => dotp r (unapply_x (R_ops lg) s v)) (n_jc p (unapply_x (R_ops lg) s x))) (apply_c (R_ops lg) s yc)).
    + apply dotp_ext.
      * unfold jc_mult. rewrite (sm_mult_len lg mc n); rewrite ?repeat_length; auto; [rewrite map_length; auto|apply recip_ok; auto].
      * symmetry. rewrite Lc. apply vmul_len; auto.
      * unfold jc_mult. rewrite (sm_mult_len lg mc n); rewrite ?repeat_length; auto. apply recip_ok; auto.
      * intros i. rewrite (jc_mult_nth lg n mc md) by auto. unfold apply_c. rewrite (vmul_nth lg mc) by auto.
        rewrite (map_nth (fun r => dotp r (unapply_x (R_ops lg) s v)) _ [] i) || (change 0 with (dotp [] (unapply_x (R_ops lg) s v)) at 3; rewrite (map_nth (fun r => dotp r (unapply_x (R_ops lg) s v)))).
        ring.
    + rewrite (adjoint n); auto; [|unfold apply_c; rewrite (vmul_len lg mc); auto]. apply dotp_ext.
      * lia.
      * rewrite map_length, seq_length. symmetry. apply (jc_tmult_len lg n mc md); auto.
      * rewrite map_length, seq_length. auto.
      * intros j. destruct (lt_dec j n) as [J|J].
        { rewrite nth_seq_map by auto. rewrite (jc_tmult_nth lg n mc md) by auto. unfold unapply_x at 1. rewrite (vdiv_nth lg n) by auto. unfold Rdiv. ring. }
        { rewrite (nth_overflow (unapply_x (R_ops lg) s v)) by lia. rewrite (nth_overflow v) by lia. ring. }
  - transitivity (dotp (map (fun r => dotp r (unapply_x (R_ops lg) s v)) (n_jd p (unapply_x (R_ops lg) s x))) (apply_d (R_ops lg) s yd)).
    + apply dotp_ext.
      * unfold jd_mult. rewrite (sm_mult_len lg md n); rewrite ?repeat_length; auto; [rewrite map_length; auto|apply recip_ok; auto].
      * symmetry. rewrite Ld. apply vmul_len; auto.
      * unfold jd_mult. rewrite (sm_mult_len lg md n); rewrite ?repeat_length; auto. apply recip_ok; auto.
      * intros i. rewrite (jd_mult_nth lg n mc md) by auto. unfold apply_d. rewrite (vmul_nth lg md) by auto.
        rewrite (map_nth (fun r => dotp r (unapply_x (R_ops lg) s v)) _ [] i) || (change 0 with (dotp [] (unapply_x (R_ops lg) s v)) at 3; rewrite (map_nth (fun r => dotp r (unapply_x (R_ops lg) s v)))).
        ring.
    + rewrite (adjoint n); auto; [|unfold apply_d; rewrite (vmul_len lg md); auto]. apply dotp_ext.
      * lia.
      * rewrite map_length, seq_length. symmetry. apply (jd_tmult_len lg n mc md); auto.
      * rewrite map_length, seq_length. auto.
      * intros j. destruct (lt_dec j n) as [J|J].
        { rewrite nth_seq_map by auto. rewrite (jd_tmult_nth lg n mc md) by auto. unfold unapply_x at 1. rewrite (vdiv_nth lg n) by auto. unfold Rdiv. ring. }
        { rewrite (nth_overflow (unapply_x (R_ops lg) s v)) by lia. rewrite (nth_overflow v) by lia. ring. }
Qed.

(** ** C33 optimality conditions *)
(** The gradient of the Lagrangian the algorithm drives to zero is, component by
    component, a nonzero multiple of the one of the user's problem at the returned
    point with the returned multipliers. *)
Theorem C33_stationarity_transparent : forall lg n mc md s p lpos upos x yc yd zl zu j,
  okscal n mc md s -> shape n mc md p -> length x = n -> length yc = mc -> length yd = md ->
  okpos n lpos -> okpos n upos -> length zl = length lpos -> length zu = length upos -> (j < n)%nat ->
  let O := R_ops lg in
  let r := nth j (grad_lag_x O s p lpos upos x yc yd zl zu) 0 in
  let u := lag_res p lpos upos (fin_x O s x) (fin_yc O s yc) (fin_yd O s yd) (fin_z O s n lpos zl) (fin_z O s n upos zu) j in
  r = sf s / fac (sx s) j * u /\ (r = 0 <-> u = 0).
Proof.
  intros lg n mc md s p lpos upos x yc yd zl zu j K SH L1 L2 L3 P1 P2 L4 L5 J O r u. subst O.
  assert (E : r = sf s / fac (sx s) j * u) by (apply (grad_lag_R lg n mc md); auto). split; auto.
  assert (F1 : fac (sx s) j <> 0) by (apply (fac_nz n); auto; apply K). assert (F2 : sf s <> 0) by apply K.
  clearbody r u. rewrite E. split; intros H; [|rewrite H; ring].
  assert (N : sf s / fac (sx s) j <> 0) by (unfold Rdiv; apply Rmult_integral_contrapositive_currified; auto; apply Rinv_neq_0_compat; auto).
  apply Rmult_integral in H. tauto.
Qed.

(** With positive factors for the variables, a point satisfies the scaled bounds
    exactly if the returned point satisfies the user's bounds. *)
Theorem C33_bounds_transparent : forall lg n mc md s pos x b k,
  okscal n mc md s -> (forall j, (j < n)%nat -> 0 < fac (sx s) j) -> okpos n pos -> length x = n -> length b = length pos -> (k < length pos)%nat ->
  let O := R_ops lg in let i := nth k pos 0%nat in
  (nth k (apply_x_LU O s n pos b) 0 <= nth i x 0 <-> nth k b 0 <= nth i (fin_x O s x) 0) /\
  (nth i x 0 <= nth k (apply_x_LU O s n pos b) 0 <-> nth i (fin_x O s x) 0 <= nth k b 0).
Proof.
  intros lg n mc md s pos x b k K PX P L1 L2 J O i. subst O. pose proof (okpos_lt _ _ _ P J) as PN. fold i in PN.
  pose proof (PX i PN) as F. rewrite (LU_nth lg n); auto; [|apply K]. fold i. unfold fin_x, unapply_x. rewrite (vdiv_nth lg n); auto; [|apply K].
  set (a := nth i x 0). set (c := nth k b 0). set (f := fac (sx s) i) in *. 
  assert (E : a = f * (a / f)) by (field; lra). split; split; intros H.
  - apply Rmult_le_reg_l with f; auto. rewrite <- E. auto.
  - rewrite E. apply Rmult_le_compat_l; lra.
  - apply Rmult_le_reg_l with f; auto. rewrite <- E. auto.
  - rewrite E. apply Rmult_le_compat_l; lra.
Qed.
(** A negative factor for a variable (accepted from the user) turns a lower bound
    into the lower bound of the negated variable. *)
Theorem C33_negative_factor_bounds_refuted : ~ (forall lg n s pos x b k,
  okscal n 0 0 s -> okpos n pos -> length x = n -> length b = length pos -> (k < length pos)%nat ->
  let O := R_ops lg in let i := nth k pos 0%nat in
  (nth k (apply_x_LU O s n pos b) 0 <= nth i x 0 -> nth k b 0 <= nth i (fin_x O s x) 0)).
Proof.
  intros H. specialize (H (fun a => a) 1%nat (SC 1 (Some [-1]) None None) [0%nat] [1] [0] 0%nat). cbv zeta in H.
  assert (OKS : okscal 1 0 0 (SC 1 (Some [-1]) None None)).
  { split; [cbn; lra|]. split; [|split; exact Logic.I]. split; [reflexivity|]. repeat constructor. lra. }
  rewrite (LU_nth (fun a => a) 1%nat) in H; auto; try apply OKS; try (split; repeat constructor; cbn; auto; fail).
  unfold fin_x, unapply_x in H. rewrite (vdiv_nth (fun a => a) 1%nat) in H; [|apply OKS|reflexivity].
  cbn [sx fac nth] in H. assert (0 <= 1 / -1); [|lra]. apply H; auto.
  - split; [repeat constructor; cbn; tauto|repeat constructor].
  - lra.
Qed.

(** ** C33 without scaling nothing is changed, bit for bit *)
Theorem C33_no_scaling_exact : forall lg p x c d z y n pos f,
  let O := num_ops lg in let s := no_scaling O in
  s_f O s p x = n_f p x /\ s_grad O s p x = n_grad p x /\ s_c O s p x = n_c p x /\ s_d O s p x = n_d p x /\
  start_x O s x = x /\ start_yc O s y = y /\ start_yd O s y = y /\ start_z O s n pos z = z /\
  fin_x O s x = x /\ fin_obj O s f = f /\ fin_c O s c = c /\ fin_d O s d = d /\
  fin_z O s n pos z = z /\ fin_yc O s y = y /\ fin_yd O s y = y.
Proof.
  intros lg p x c d z y n pos f O s. subst O s.
  assert (V : forall v, vscal (num_ops lg) (apply_obj (num_ops lg) (no_scaling (num_ops lg)) (t1 (num_ops lg))) v = v).
  { intros v. unfold vscal, apply_obj, no_scaling. cbn [sf]. change (tmul (num_ops lg)) with nmul. change (t1 (num_ops lg)) with none.
    rewrite nmul_1. change (teq (num_ops lg) none none) with (neqb none none).
    assert (E : neqb none none = true) by (apply neqb_iff; repeat split; apply nfin_nnan, none_fin). rewrite E. reflexivity. }
  assert (W : forall v, vscal (num_ops lg) (unapply_obj (num_ops lg) (no_scaling (num_ops lg)) (t1 (num_ops lg))) v = v).
  { intros v. unfold vscal, unapply_obj, no_scaling. cbn [sf]. change (tdiv (num_ops lg)) with ndiv. change (t1 (num_ops lg)) with none.
    rewrite ndiv_1. change (teq (num_ops lg) none none) with (neqb none none).
    assert (E : neqb none none = true) by (apply neqb_iff; repeat split; apply nfin_nnan, none_fin). rewrite E. reflexivity. }
  unfold s_f, s_grad, apply_grad, start_yc, start_yd, start_z, fin_z, fin_yc, fin_yd. rewrite !V, !W.
  repeat split; auto.
  - unfold apply_obj, no_scaling. cbn [sf]. apply nmul_1.
  - unfold fin_obj, unapply_obj, no_scaling. cbn [sf]. apply ndiv_1.
Qed.

(** ** C33 gradient-based factors *)
(** exact arithmetic: the objective *)
Theorem C33_objective_factor : forall lg maxgrad minv g, 0 < maxgrad ->
  let df := grad_df (R_ops lg) maxgrad 0 minv (Some g) in
  ((forall a, In a g -> Rabs a <= maxgrad) -> df = Rmax 1 minv) /\
  (forall a, In a g -> maxgrad < Rabs a -> (forall b, In b g -> Rabs b <= Rabs a) -> df = Rmax (maxgrad / Rabs a) minv).
Proof. intros. apply grad_df_max; auto. Qed.
Theorem C33_objective_factor_with_target : forall lg maxgrad target minv g, 0 < target ->
  let df := grad_df (R_ops lg) maxgrad target minv (Some g) in
  ((forall a, In a g -> a = 0) -> df = Rmax 1 minv) /\
  (forall a, In a g -> a <> 0 -> (forall b, In b g -> Rabs b <= Rabs a) -> df = Rmax (target / Rabs a) minv).
Proof. intros. apply grad_df_target; auto. Qed.
(** the constraints: no factors if all rows are small; else every row gets a factor
    in (0,1] (or the minimum) that brings its largest entry down to the limit *)
Theorem C33_constraint_factors : forall lg maxgrad minv dmin A target,
  0 < dmin -> 0 < maxgrad -> target <= 0 -> 0 <= minv <= 1 -> A <> [] ->
  let dc := grad_dc (R_ops lg) maxgrad target minv dmin (Some A) in
  (dc = None -> forall r a, In r A -> In a r -> Rabs a <= maxgrad) /\
  (forall d, dc = Some d -> length d = length A /\
     forall i, (i < length A)%nat ->
       0 < nth i d 0 <= 1 /\ minv <= nth i d 0 /\
       (nth i d 0 <= minv \/ forall a, In a (nth i A []) -> nth i d 0 * Rabs a <= maxgrad) /\
       ((forall a, In a (nth i A []) -> Rabs a <= maxgrad) -> dmin <= maxgrad -> nth i d 0 = 1)).
Proof.
  intros lg maxgrad minv dmin A target D G T M N dc. destruct (grad_dc_max lg maxgrad minv dmin A target D G T (proj1 M) N) as [H1 H2].
  fold dc in H1, H2. split.
  - intros E r a Ir Ia. apply H1 with (r := r) in E; auto. eapply Rle_trans; [|exact E]. unfold rowmax.
    eapply Rle_trans; [|apply Rmax_r]. apply (fr_max_ub lg), in_map, Ia.
  - intros d E. rewrite (H2 d E). rewrite map_length. split; auto. intros i Hi.
    assert (NE : nth i (map (fun r => Rmax (Rmin (maxgrad / rowmax dmin r) 1) minv) A) 0 = Rmax (Rmin (maxgrad / rowmax dmin (nth i A [])) 1) minv).
    { rewrite nth_indep with (d' := Rmax (Rmin (maxgrad / rowmax dmin []) 1) minv) by (rewrite map_length; auto).
      apply (map_nth (fun r => Rmax (Rmin (maxgrad / rowmax dmin r) 1) minv)). }
    rewrite NE. set (r := nth i A []). pose proof (rowmax_pos dmin r D) as RP.
    assert (Q : 0 < maxgrad / rowmax dmin r) by (apply Rdiv_lt_0_compat; auto).
    set (q := maxgrad / rowmax dmin r) in *. assert (MQ : 0 < Rmin q 1) by (apply Rmin_glb_lt; lra).
    assert (MQ1 : Rmin q 1 <= 1) by apply Rmin_r. repeat split.
    + eapply Rlt_le_trans; [exact MQ|apply Rmax_l].
    + apply Rmax_lub; lra.
    + apply Rmax_r.
    + destruct (Rle_dec (Rmin q 1) minv) as [LE|LE]; [left; rewrite Rmax_right; lra|right]. intros a Ia.
      rewrite Rmax_left by lra. assert (RA : Rabs a <= rowmax dmin r).
      { unfold rowmax. eapply Rle_trans; [|apply Rmax_r]. apply (fr_max_ub lg), in_map, Ia. }
      apply Rle_trans with (q * rowmax dmin r); [|unfold q; right; field; lra].
      apply Rmult_le_compat; try lra; [apply Rabs_pos|apply Rmin_l].
    + intros SM DM. assert (RM : rowmax dmin r <= maxgrad).
      { unfold rowmax. apply Rmax_lub; auto. destruct (fr_max_in (map Rabs r)) as [Z|I0]; [lra|].
        apply in_map_iff in I0. destruct I0 as (a & Ea & Ia). rewrite <- Ea. apply SM, Ia. }
      assert (1 <= q). { unfold q. apply Rmult_le_reg_r with (rowmax dmin r); auto. unfold Rdiv. rewrite Rmult_assoc, Rinv_l; lra. }
      rewrite Rmin_right by lra. rewrite Rmax_left; lra.
Qed.
(** IEEE doubles, for every gradient and Jacobian the user may return, infinite or
    NaN entries included: factors are finite numbers between the minimum and 1 *)
Theorem C33_factors_in_doubles : forall lg maxgrad ctarget minv dmin g Jc Jd,
  nfin maxgrad = true -> 0 < key maxgrad -> nfin minv = true -> 0 <= key minv <= 1 ->
  nfin dmin = true -> 0 < key dmin -> nfin (ndiv none dmin) = true -> nlt nzero ctarget = false ->
  let s := gradient_scaling (num_ops lg) maxgrad nzero ctarget minv dmin g Jc Jd in
  (nfin (sf s) = true /\ key minv <= key (sf s) <= 1) /\ sx s = None /\
  (forall d, sc s = Some d -> Forall (fun a => nfin a = true /\ key minv <= key a <= 1) d) /\
  (forall d, sd s = Some d -> Forall (fun a => nfin a = true /\ key minv <= key a <= 1) d).
Proof.
  intros lg maxgrad ctarget minv dmin g Jc Jd F P FM M FD PD RD NT s. split; [apply grad_df_dbl; auto|]. split; [reflexivity|].
  split; intros d E; [apply (grad_dc_dbl lg maxgrad ctarget minv dmin Jc d F P FM M FD PD RD NT E)|apply (grad_dc_dbl lg maxgrad ctarget minv dmin Jd d F P FM M FD PD RD NT E)].
Qed.
(** If nlp_scaling_min_value is 0, a factor can become 0. *)
Definition dbl_min : num := @B754_finite 53 1024 false 4503599627370496 (-1074) eq_refl.
Theorem C33_factor_zero_refuted : ~ (forall lg maxgrad minv g, nfin maxgrad = true -> nlt nzero maxgrad = true -> nfin minv = true -> nle nzero minv = true ->
  nlt nzero (grad_df (num_ops lg) maxgrad nzero minv (Some g)) = true).
Proof.
  intros H. specialize (H (fun a => a) (nofZ 100) nzero [ninf]).
  assert (E : nlt nzero (grad_df (num_ops (fun a => a)) (nofZ 100) nzero nzero (Some [ninf])) = false) by (vm_compute; reflexivity).
  rewrite H in E; [discriminate E| | | |]; vm_compute; reflexivity.
Qed.
Example C33_ex_doubles :
  let s := gradient_scaling (num_ops (fun a => a)) (nofZ 100) nzero nzero (ndiv none (nofZ 100000000)) dbl_min
             (Some [nofZ 3; nofZ (-400)]) (Some [[nofZ 1000; nofZ 1]; [nofZ 0; nofZ 0]]) (Some [[nofZ 5]]) in
  neqb (sf s) (ndiv none (nofZ 4)) = true /\
  match sc s with Some [a; b] => neqb b none && nlt a none | _ => false end = true /\
  match sd s with None => true | _ => false end = true /\
  nfin (ndiv none dbl_min) = true /\ nlt nzero dbl_min = true.
Proof. vm_compute. auto. Qed.

(** ** C33 the user's factors *)
(** Factor i of the user's list is applied to variable i / constraint i wherever it
    is placed in the algorithm's vectors; constraints added for fixed variables are
    not scaled; the factor of the objective is multiplied by obj_scaling_factor. *)
Theorem C33_user_factors : forall lg xpos cpos dpos nfix obj usex xs useg gs osf,
  let O := R_ops lg in
  let s := with_obj_factor O osf (user_scaling O xpos cpos dpos nfix obj usex xs useg gs) in
  sf s = obj * osf /\
  (usex = true -> forall k, match xpos with Some pos => (k < length pos)%nat -> fac (sx s) k = nth (nth k pos 0%nat) xs 0
                            | None => fac (sx s) k = nth k xs 0 end) /\
  (usex = false -> sx s = None) /\
  (useg = true -> (forall k, (k < length cpos)%nat -> fac (sc s) k = nth (nth k cpos 0%nat) gs 0) /\
                  (forall k, (k < nfix)%nat -> fac (sc s) (length cpos + k) = 1) /\
                  (forall k, (k < length dpos)%nat -> fac (sd s) k = nth (nth k dpos 0%nat) gs 0)) /\
  (useg = false -> sc s = None /\ sd s = None).
Proof.
  intros lg xpos cpos dpos nfix obj usex xs useg gs osf O s. subst O s. unfold with_obj_factor, user_scaling. cbn [sf sx sc sd].
  split; [reflexivity|]. split; [|split; [|split]].
  - intros -> k. cbn [fac]. destruct xpos as [pos|]; [|reflexivity]. intros Hk. apply pick_nth; auto.
  - intros ->. reflexivity.
  - intros ->. cbn [fac]. split; [|split]; intros k Hk.
    + rewrite app_nth1 by (rewrite pick_len; auto). apply pick_nth; auto.
    + rewrite app_nth2 by (rewrite pick_len; lia). rewrite pick_len. replace (length cpos + k - length cpos)%nat with k by lia.
      cbn [R_ops t1]. revert k Hk. induction nfix; intros k Hk; [lia|]. destruct k; cbn [repeat nth]; auto. apply IHnfix. lia.
    + apply pick_nth; auto.
  - intros ->. auto.
Qed.

(** ** C48 reported errors *)
(** The "unscaled" dual infeasibility used for termination and output is the norm of
    the gradient of the Lagrangian of the user's problem (in x and in the slacks) at
    the point and with the multipliers that would be returned. *)
Theorem C48_dual_infeasibility : forall lg n mc md s p nt lpos upos slpos supos x yc yd zl zu vl vu,
  okscal n mc md s -> shape n mc md p ->
  length x = n -> length yc = mc -> length yd = md -> okpos n lpos -> okpos n upos -> okpos md slpos -> okpos md supos ->
  length zl = length lpos -> length zu = length upos -> length vl = length slpos -> length vu = length supos ->
  let O := R_ops lg in
  unscaled_dual_inf O nt s p lpos upos slpos supos x yc yd zl zu vl vu
  = norm_spec nt
      [map (lag_res p lpos upos (fin_x O s x) (fin_yc O s yc) (fin_yd O s yd) (fin_z O s n lpos zl) (fin_z O s n upos zu)) (seq 0 n);
       map (slack_res slpos supos (fin_yd O s yd) (user_v s slpos vl) (user_v s supos vu)) (seq 0 md)].
Proof. intros. apply (dual_inf_R lg n mc md s p); auto. Qed.
(** The "unscaled" constraint violation is the norm of the user's constraint
    residuals: c(x), the amounts by which d(x) is below d_L or above d_U. *)
Theorem C48_constraint_violation : forall lg n mc md s p nt slpos supos dl du x,
  okscal n mc md s -> shape n mc md p ->
  length x = n -> okpos md slpos -> okpos md supos -> length dl = length slpos -> length du = length supos ->
  let O := R_ops lg in
  unscaled_viol O nt s p slpos supos (apply_d_LU O s md slpos dl) (apply_d_LU O s md supos du) x
  = norm_spec nt [n_c p (fin_x O s x); below slpos (n_d p (fin_x O s x)) dl; above supos (n_d p (fin_x O s x)) du].
Proof. intros. apply (viol_R lg n mc md); auto. Qed.
(** The "unscaled" complementarity is the norm of the products of distances to the
    user's bounds and returned multipliers. *)
Theorem C48_complementarity : forall lg n mc md s nt lpos upos slpos supos x xl xu zl zu sv dl du vl vu,
  okscal n mc md s ->
  length x = n -> length sv = md -> okpos n lpos -> okpos n upos -> okpos md slpos -> okpos md supos ->
  length xl = length lpos -> length xu = length upos -> length dl = length slpos -> length du = length supos ->
  length zl = length lpos -> length zu = length upos -> length vl = length slpos -> length vu = length supos ->
  let O := R_ops lg in
  unscaled_compl O nt s
    [compl O (slack_L O lpos x (apply_x_LU O s n lpos xl)) zl; compl O (slack_U O upos x (apply_x_LU O s n upos xu)) zu;
     compl O (slack_L O slpos sv (apply_d_LU O s md slpos dl)) vl; compl O (slack_U O supos sv (apply_d_LU O s md supos du)) vu]
  = norm_spec nt
    [prod_low lpos (fin_x O s x) xl (fin_z O s n lpos zl); prod_upp upos (fin_x O s x) xu (fin_z O s n upos zu);
     prod_low slpos (fin_d O s sv) dl (user_v s slpos vl); prod_upp supos (fin_d O s sv) du (user_v s supos vu)].
Proof.
  intros lg n mc md s nt lpos upos slpos supos x xl xu zl zu sv dl du vl vu K. intros. subst O.
  rewrite (comp_x_low lg n mc md), (comp_x_upp lg n mc md), (comp_s_low lg n mc md), (comp_s_upp lg n mc md) by auto.
  apply (compl_R lg n mc md s K nt [_; _; _; _]).
Qed.

(** ** C49 starting multipliers *)
(** Constraint multipliers and x of a starting point are understood as values of the
    user's problem: if returned unchanged, they are what the user gave. *)
Theorem C49_start_round_trip : forall lg n mc md s x yc yd, okscal n mc md s -> length x = n -> length yc = mc -> length yd = md ->
  let O := R_ops lg in
  fin_x O s (start_x O s x) = x /\ fin_yc O s (start_yc O s yc) = yc /\ fin_yd O s (start_yd O s yd) = yd.
Proof.
  intros lg n mc md s x yc yd K L1 L2 L3 O. subst O. pose proof K as (Kf & Kx & Kc & Kd). split; [|split].
  - apply (trip_md lg n); auto.
  - assert (LL : length (start_yc (R_ops lg) s yc) = mc) by (unfold start_yc; rewrite vscal_len; apply vdiv_len; auto).
    apply list_eq_nth; [unfold fin_yc; rewrite vscal_len; unfold apply_c; rewrite (vmul_len lg mc); auto|].
    unfold fin_yc at 1. rewrite vscal_len. unfold apply_c. rewrite (vmul_len lg mc) by auto. intros j J.
    rewrite (fin_yc_nth lg n mc md) by auto. unfold start_yc. rewrite vscal_nth. unfold unapply_c. rewrite (vdiv_nth lg mc) by auto.
    unfold apply_obj. cbn [R_ops tmul t1]. field. split; auto. apply (fac_nz mc); auto.
  - assert (LL : length (start_yd (R_ops lg) s yd) = md) by (unfold start_yd; rewrite vscal_len; apply vdiv_len; auto).
    apply list_eq_nth; [unfold fin_yd; rewrite vscal_len; unfold apply_d; rewrite (vmul_len lg md); auto|].
    unfold fin_yd at 1. rewrite vscal_len. unfold apply_d. rewrite (vmul_len lg md) by auto. intros j J.
    rewrite (fin_yd_nth lg n mc md) by auto. unfold start_yd. rewrite vscal_nth. unfold unapply_d. rewrite (vdiv_nth lg md) by auto.
    unfold apply_obj. cbn [R_ops tmul t1]. field. split; auto. apply (fac_nz md); auto.
Qed.
(** Bound multipliers: the same if the variables are not scaled ... *)
Theorem C49_start_bound_multipliers : forall lg n mc md s pos z, okscal n mc md s -> sx s = None -> okpos n pos -> length z = length pos ->
  let O := R_ops lg in fin_z O s n pos (start_z O s n pos z) = z.
Proof.
  intros lg n mc md s pos z K NX P L O. subst O.
  assert (LL : length (start_z (R_ops lg) s n pos z) = length pos) by (unfold start_z; rewrite vscal_len; apply LU_len; auto).
  apply list_eq_nth; [rewrite (fin_z_len lg); auto|]. rewrite (fin_z_len lg) by auto. intros j J.
  rewrite (fin_z_nth lg n mc md s K) by auto. unfold start_z. rewrite vscal_nth, (LU_nth lg n) by (auto; apply K). rewrite NX. cbn [fac].
  unfold apply_obj. cbn [R_ops tmul t1]. field. apply K.
Qed.
(** ... and a starting point that satisfies the optimality conditions of the user's
    problem satisfies those of the scaled problem. *)
Theorem C49_warm_start_residual : forall lg n mc md s p lpos upos x yc yd zl zu j,
  okscal n mc md s -> shape n mc md p -> sx s = None ->
  length x = n -> length yc = mc -> length yd = md ->
  okpos n lpos -> okpos n upos -> length zl = length lpos -> length zu = length upos -> (j < n)%nat ->
  let O := R_ops lg in
  nth j (grad_lag_x O s p lpos upos (start_x O s x) (start_yc O s yc) (start_yd O s yd) (start_z O s n lpos zl) (start_z O s n upos zu)) 0
  = sf s * lag_res p lpos upos x yc yd zl zu j.
Proof.
  intros lg n mc md s p lpos upos x yc yd zl zu j K SH NX L1 L2 L3 P1 P2 L4 L5 J O. subst O. pose proof K as (Kf & Kx & Kc & Kd).
  rewrite (grad_lag_R lg n mc md s p K SH); auto.
  - destruct (C49_start_round_trip lg n mc md s x yc yd K L1 L2 L3) as (E1 & E2 & E3). rewrite E1, E2, E3.
    rewrite (C49_start_bound_multipliers lg n mc md s lpos zl), (C49_start_bound_multipliers lg n mc md s upos zu) by auto.
    rewrite NX. cbn [fac]. field.
  - unfold start_x, apply_x. apply vmul_len; auto.
  - unfold start_yc. rewrite vscal_len. apply vdiv_len; auto.
  - unfold start_yd. rewrite vscal_len. apply vdiv_len; auto.
  - unfold start_z. rewrite vscal_len. apply LU_len; auto.
  - unfold start_z. rewrite vscal_len. apply LU_len; auto.
Qed.
(** With scaled variables the code multiplies the bound multipliers by the variable's
    factor where it should divide: returned unchanged, they come back multiplied by
    the square of the factor, and an optimal starting point of the user's problem is
    not optimal for the scaled problem. *)
Theorem C49_bound_multipliers_squared : forall lg n mc md s pos z k, okscal n mc md s -> okpos n pos -> length z = length pos -> (k < length pos)%nat ->
  let O := R_ops lg in
  nth k (fin_z O s n pos (start_z O s n pos z)) 0 = fac (sx s) (nth k pos 0%nat) * fac (sx s) (nth k pos 0%nat) * nth k z 0.
Proof.
  intros lg n mc md s pos z k K P L J O. subst O.
  assert (LL : length (start_z (R_ops lg) s n pos z) = length pos) by (unfold start_z; rewrite vscal_len; apply LU_len; auto).
  rewrite (fin_z_nth lg n mc md s K) by auto. unfold start_z. rewrite vscal_nth, (LU_nth lg n) by (auto; apply K).
  unfold apply_obj. cbn [R_ops tmul t1]. field. apply K.
Qed.
(** min x, x >= 0: at x = 0 with z = 1; variable factor 2 *)
Definition toy : nlp (T := R) := NLP (fun x => nth 0 x 0) (fun _ => [1]) (fun _ => []) (fun _ => []) (fun _ => []) (fun _ => []) (fun _ _ _ _ => [[0]]).
Lemma toy_shape : shape 1 0 0 toy.
Proof. intros x _. cbn. repeat split; auto. Qed.
Definition two : scaling (T := R) := SC 1 (Some [2]) None None.
Lemma two_ok : okscal 1 0 0 two.
Proof. split; [cbn; lra|]. split; [|split; exact Logic.I]. split; [reflexivity|]. repeat constructor. lra. Qed.
Lemma pos_ok : okpos 1 [0%nat].
Proof. split; [repeat constructor; cbn; tauto|repeat constructor]. Qed.
Theorem C49_warm_start_with_x_scaling_refuted : ~ (forall lg n mc md s p lpos upos x yc yd zl zu j,
  okscal n mc md s -> shape n mc md p ->
  length x = n -> length yc = mc -> length yd = md ->
  okpos n lpos -> okpos n upos -> length zl = length lpos -> length zu = length upos -> (j < n)%nat ->
  let O := R_ops lg in
  lag_res p lpos upos x yc yd zl zu j = 0 ->
  nth j (grad_lag_x O s p lpos upos (start_x O s x) (start_yc O s yc) (start_yd O s yd) (start_z O s n lpos zl) (start_z O s n upos zu)) 0 = 0).
Proof.
  intros H. specialize (H (fun a => a) 1%nat 0%nat 0%nat two toy [0%nat] [] [0] [] [] [1] [] 0%nat two_ok toy_shape). cbv zeta in H.
  assert (P0 : okpos 1 []) by (split; constructor).
  assert (Z : lag_res toy [0%nat] [] [0] [] [] [1] [] 0 = 0) by (unfold lag_res, toy, tprod, zat, dotp; cbn; ring).
  specialize (H eq_refl eq_refl eq_refl pos_ok P0 eq_refl eq_refl (le_n 1) Z).
  rewrite (grad_lag_R (fun a => a) 1 0 0 two toy two_ok toy_shape) in H; auto using pos_ok.
  - destruct (C49_start_round_trip (fun a => a) 1 0 0 two [0] [] [] two_ok eq_refl eq_refl eq_refl) as (E1 & E2 & E3).
    rewrite E1, E2, E3 in H. unfold lag_res in H.
    replace (zat [0%nat] (fin_z (R_ops (fun a => a)) two 1 [0%nat] (start_z (R_ops (fun a => a)) two 1 [0%nat] [1])) 0) with (4 : R) in H.
    + unfold toy, tprod, dotp, zat in H. cbn in H. lra.
    + set (z := fin_z _ _ _ _ _).
      assert (Lz : length z = 1%nat).
      { assert (L1 : length (start_z (R_ops (fun a : R => a)) two 1 [0%nat] [1]) = 1%nat)
          by (unfold start_z; rewrite vscal_len; apply (LU_len (fun a : R => a) 1 [0%nat] two [1]); reflexivity).
        unfold z, fin_z. rewrite vscal_len. apply (LU_len (fun a : R => a) 1 [0%nat] two); exact L1. }
      assert (Ez : nth 0 z 0 = 4).
      { unfold z. rewrite (C49_bound_multipliers_squared (fun a => a) 1 0 0 two [0%nat] [1] 0 two_ok pos_ok eq_refl); [cbn; ring|cbn; lia]. }
      clearbody z. destruct z as [|z1 [|? ?]]; try discriminate. cbn in Ez. subst z1. unfold zat. cbn. ring.
  - unfold start_yc. rewrite vscal_len. reflexivity.
  - unfold start_yd. rewrite vscal_len. reflexivity.
  - unfold start_z. rewrite vscal_len. apply (LU_len (fun a : R => a) 1 [0%nat] two [1]); reflexivity.
  - unfold start_z. rewrite vscal_len. apply (LU_len (fun a : R => a) 1 [] two []); reflexivity.
Qed.

(** the hypotheses are met: toy problem with a factor for the objective and x *)
Example C33_ex_toy : is_gradient (n_f toy) (fin_x (R_ops (fun a => a)) two [1]) (n_grad toy (fin_x (R_ops (fun a => a)) two [1])).
Proof.
  assert (L : length (fin_x (R_ops (fun a => a)) two [1]) = 1%nat) by (apply (ux_len (fun a => a) 1 0 0); auto using two_ok).
  split; [rewrite L; reflexivity|]. rewrite L. intros q Lq. destruct q as [|q [|? ?]]; try discriminate.
  set (u := fin_x _ _ _) in *. destruct u as [|u [|? ?]]; try discriminate.
  apply (deriv_ext (fun t => q * t + u)); [intros t; cbn; ring|].
  unfold dotp, toy. cbn [n_grad map2 fold_right]. replace (1 * q + 0) with (q * 1 + 0) by ring.
  apply derivable_pt_lim_plus; [apply derivable_pt_lim_scal, derivable_pt_lim_id|apply derivable_pt_lim_const].
Qed.

Print Assumptions C33_round_trips.
Print Assumptions C33_hessian_of_scaled_lagrangian.
Print Assumptions C33_factors_in_doubles.
Print Assumptions C48_dual_infeasibility.
Print Assumptions C49_warm_start_with_x_scaling_refuted.
