(** The restoration problem: functions, derivatives, starting point. *)
From Coq Require Import Reals List Arith Bool Lra Lia.
From Verif Require Import CQModel CQSpec CQVec PdModel PdSpec PdAlg AugModel AugSpec RstModel RstSpec.
Import ListNotations.
Open Scope R_scope.
Local Notation "v .[ i ]" := (nth i v 0) (at level 1, format "v .[ i ]").

Lemma vsum_is v : vsum v = sum_of v.
Proof.
  unfold sum_of. rewrite <- (fold_sum (fun u => u) v (length v) (fun i => v.[i]) (vis_self v _ eq_refl)). reflexivity.
Qed.
Lemma vmove_len x t v : length (vmove x t v) = length x.
Proof. unfold vmove. apply mk_len. Qed.
Lemma vmove_el x t v i : (i < length x)%nat -> (vmove x t v).[i] = x.[i] + t * v.[i].
Proof. intros H. exact (mk_el (length x) (fun i => x.[i] + t * v.[i]) i H). Qed.
Lemma sum_move x t v : length v = length x -> sum_of (vmove x t v) = sum_of x + t * sum_of v.
Proof.
  intros L. unfold sum_of. rewrite vmove_len, L, <- sumn_scal, <- sumn_plus. apply sumn_ext. intros i Hi. apply vmove_el. exact Hi.
Qed.
Lemma max3_inv a : / Rmax (Rmax 1 a) (-1 * a) = if Req_EM_T a 0 then 1 else Rmin 1 (/ Rabs a).
Proof.
  assert (M : Rmax (Rmax 1 a) (-1 * a) = Rmax 1 (Rabs a)).
  { destruct (Rle_dec 0 a) as [H|H].
    - rewrite (Rabs_right a) by lra. apply Rmax_left. pose proof (Rmax_r 1 a). lra.
    - rewrite (Rabs_left a) by lra. rewrite (Rmax_left 1 a) by lra. f_equal. lra. }
  rewrite M. destruct (Req_EM_T a 0) as [->|N].
  - rewrite Rabs_R0, Rmax_left by lra. apply Rinv_1.
  - pose proof (Rabs_pos_lt a N) as HP. destruct (Rle_dec 1 (Rabs a)) as [H|H].
    + rewrite Rmax_right by exact H. rewrite Rmin_right; [reflexivity|]. rewrite <- Rinv_1. apply Rinv_le_contravar; lra.
    + rewrite Rmax_left by lra. rewrite Rinv_1. rewrite Rmin_left; [reflexivity|]. rewrite <- Rinv_1. apply Rinv_le_contravar; lra.
Qed.

Section Prob.
Variable Z : resto.
Notation P := (z_P Z). Notation nx := (n_x P). Notation nc := (n_c P). Notation nd := (n_s P).
Hypotheses (HP : nlp_ok P) (HR : length (z_ref Z) = nx).

Lemma dr_is : vec_is (dr_x Z) nx (DR Z).
Proof.
  pose proof (vis_self _ _ HR) as V. unfold dr_x. eapply vis_ext.
  - apply vmap_is. apply vmap2_is; [apply vmap2_is; [|exact V]|apply vmap_is; exact V]. unfold dim. rewrite HR. apply vset_is.
  - intros i Hi. cbv beta. apply max3_inv.
Qed.
Lemma dr2_is : vec_is (dr2_x Z) nx (fun i => DR Z i * DR Z i).
Proof. unfold dr2_x. apply emul_is; exact dr_is. Qed.

Lemma f_is x mu : rv_ok nx nd nc x -> resto_f Z x mu = objective Z x mu.
Proof.
  intros (X1 & X2 & X3 & X4 & X5). unfold resto_f, objective. cbn [fold_left]. rewrite !vsum_is.
  assert (V : vec_is (emul (axpy (-1) (z_ref Z) (r_x x)) (dr_x Z)) nx (fun i => DR Z i * ((r_x x).[i] - (z_ref Z).[i]))).
  { eapply vis_ext; [apply emul_is; [apply axpy_is; [apply (vis_self _ _ HR)|apply (vis_self _ _ X1)]|exact dr_is]|]. intros i _. cbv beta. ring. }
  pose proof (nrm2_sq _ _ _ V) as N. unfold eta. rewrite Rmult_assoc, N. ring.
Qed.
Lemma g_is x mu : rv_ok nx nd nc x -> vec_is (r_x (resto_g Z x mu)) nx (fun i => eta Z mu * (DR Z i * DR Z i * ((r_x x).[i] - (z_ref Z).[i]))).
Proof.
  intros (X1 & _). unfold resto_g. cbn [r_x]. eapply vis_ext; [apply vmap_is; apply emul_is; [apply axpy_is; [apply (vis_self _ _ HR)|apply (vis_self _ _ X1)]|exact dr2_is]|].
  intros i _. cbv beta. ring.
Qed.
Lemma rv_move x t v : rv_ok nx nd nc x -> rv_ok nx nd nc (rmove x t v).
Proof. intros (X1 & X2 & X3 & X4 & X5). unfold rv_ok, rmove. cbn. rewrite !vmove_len. splits; assumption. Qed.

Lemma f_expand x v mu t : rv_ok nx nd nc x -> rv_ok nx nd nc v ->
  resto_f Z (rmove x t v) mu = resto_f Z x mu + t * rdot (resto_g Z x mu) v
    + t * t / 2 * sumn nx (fun i => z_eta Z * Rpower mu (z_exp Z) * (DR Z i * (r_x v).[i]) * (DR Z i * (r_x v).[i])).
Proof.
  intros Hx Hv. rewrite !f_is by (try apply rv_move; assumption).
  pose proof (g_is x mu Hx) as [G1 G2].
  assert (C : forall u w, length w = length u -> sumn (length (vset (dim u) (z_rho Z))) (fun i => (vset (dim u) (z_rho Z)).[i] * w.[i]) = z_rho Z * sum_of w).
  { intros u w L. unfold sum_of. destruct (vset_is (dim u) (z_rho Z)) as [V1 V2]. rewrite V1. rewrite L, <- sumn_scal. apply sumn_ext. intros i Hi. rewrite V2 by exact Hi. reflexivity. }
  destruct Hx as (X1 & X2 & X3 & X4 & X5). destruct Hv as (V1 & V2 & V3 & V4 & V5).
  unfold rdot. rewrite G1. unfold resto_g at 2 3 4 5 6 7 8 9. cbn [r_nc r_pc r_nd r_pd]. rewrite !C by congruence.
  rewrite (sumn_ext nx (fun i => (r_x (resto_g Z x mu)).[i] * (r_x v).[i]) (fun i => eta Z mu * ((DR Z i * DR Z i * ((r_x x).[i] - (z_ref Z).[i])) * (r_x v).[i]))) by (intros i Hi; rewrite G2 by exact Hi; ring).
  rewrite sumn_scal. unfold objective, rmove. cbn [r_x r_nc r_pc r_nd r_pd]. rewrite !sum_move by congruence.
  rewrite (sumn_ext nx (fun i => (DR Z i * ((vmove (r_x x) t (r_x v)).[i] - (z_ref Z).[i])) * (DR Z i * ((vmove (r_x x) t (r_x v)).[i] - (z_ref Z).[i])))
    (fun i => (DR Z i * ((r_x x).[i] - (z_ref Z).[i])) * (DR Z i * ((r_x x).[i] - (z_ref Z).[i])) +
      (2 * t * ((DR Z i * DR Z i * ((r_x x).[i] - (z_ref Z).[i])) * (r_x v).[i]) + t * t * ((DR Z i * (r_x v).[i]) * (DR Z i * (r_x v).[i]))))) by (intros i Hi; rewrite vmove_el by (rewrite X1; exact Hi); ring).
  rewrite !sumn_plus, !sumn_scal.
  rewrite (sumn_ext nx (fun i => z_eta Z * Rpower mu (z_exp Z) * (DR Z i * (r_x v).[i]) * (DR Z i * (r_x v).[i])) (fun i => z_eta Z * Rpower mu (z_exp Z) * ((DR Z i * (r_x v).[i]) * (DR Z i * (r_x v).[i])))) by (intros i _; ring).
  rewrite !sumn_scal. unfold eta. field.
Qed.

(** ** constraints *)
Lemma c_is x : rv_ok nx nd nc x -> vec_is (resto_c Z x) nc (fun i => (fn_c P (r_x x)).[i] + (r_nc x).[i] - (r_pc x).[i]).
Proof.
  intros (X1 & X2 & X3 & X4 & X5). unfold resto_c. pose proof (p_c _ HP _ X1) as C.
  eapply vis_ext; [apply axpy_is; [apply (vis_self _ _ X3)|apply axpy_is; [apply (vis_self _ _ X2)|apply (vis_self _ _ C)]]|]. intros i _. cbv beta. ring.
Qed.
Lemma d_is x : rv_ok nx nd nc x -> vec_is (resto_d Z x) nd (fun i => (fn_d P (r_x x)).[i] + (r_nd x).[i] - (r_pd x).[i]).
Proof.
  intros (X1 & X2 & X3 & X4 & X5). unfold resto_d. pose proof (p_d _ HP _ X1) as C.
  eapply vis_ext; [apply axpy_is; [apply (vis_self _ _ X5)|apply axpy_is; [apply (vis_self _ _ X4)|apply (vis_self _ _ C)]]|]. intros i _. cbv beta. ring.
Qed.
Lemma jc_is x v : rv_ok nx nd nc x -> rv_ok nx nd nc v -> vec_is (rj_mul (resto_Jc Z x) v) nc (fun i => Jv (fn_Jc P (r_x x)) (r_x v) i + (r_nc v).[i] - (r_pc v).[i]).
Proof.
  intros _ (X1 & X2 & X3 & X4 & X5). unfold rj_mul, resto_Jc. cbn [j_0 j_nc j_pc j_nd j_pd id_add]. destruct (p_Jc _ HP (r_x x)) as [J1 J2].
  eapply vis_ext; [apply axpy_is; [apply (vis_self _ _ X3)|apply axpy_is; [apply (vis_self _ _ X2)|eapply mmul_is; [apply (vis_self _ _ X1)|exact J2|exact J1]]]|].
  intros i _. cbv beta. unfold Jv. rewrite J2. ring.
Qed.
Lemma jd_is x v : rv_ok nx nd nc x -> rv_ok nx nd nc v -> vec_is (rj_mul (resto_Jd Z x) v) nd (fun i => Jv (fn_Jd P (r_x x)) (r_x v) i + (r_nd v).[i] - (r_pd v).[i]).
Proof.
  intros _ (X1 & X2 & X3 & X4 & X5). unfold rj_mul, resto_Jd. cbn [j_0 j_nc j_pc j_nd j_pd id_add]. destruct (p_Jd _ HP (r_x x)) as [J1 J2].
  eapply vis_ext; [apply axpy_is; [apply (vis_self _ _ X5)|apply axpy_is; [apply (vis_self _ _ X4)|eapply mmul_is; [apply (vis_self _ _ X1)|exact J2|exact J1]]]|].
  intros i _. cbv beta. unfold Jv. rewrite J2. ring.
Qed.
Lemma dlim_ext f g x l : (forall t, f t = g t) -> derivable_pt_lim f x l -> derivable_pt_lim g x l.
Proof. intros E H e He. destruct (H e He) as [d Hd]. exists d. intros h H1 H2. rewrite <- !E. apply Hd; assumption. Qed.
Lemma dlim_plus f g x a b : derivable_pt_lim f x a -> derivable_pt_lim g x b -> derivable_pt_lim (fun t => f t + g t) x (a + b).
Proof. intros A B. exact (derivable_pt_lim_plus f g x a b A B). Qed.
Lemma dlim_affine a b : derivable_pt_lim (fun t => a + t * b) 0 b.
Proof.
  intros e He. exists (mkposreal 1 Rlt_0_1). intros h H1 _. replace ((a + (0 + h) * b - (a + 0 * b)) / h - b) with 0 by (field; exact H1).
  rewrite Rabs_R0. exact He.
Qed.
Lemma dlim_add_affine F D a b : derivable_pt_lim F 0 D -> derivable_pt_lim (fun t => F t + (a + t * b)) 0 (D + b).
Proof. intros H. apply (dlim_plus F (fun t => a + t * b)); [exact H|apply dlim_affine]. Qed.
Lemma c_diff x v i : rv_ok nx nd nc x -> rv_ok nx nd nc v -> jac_right (fn_c P) (fn_Jc P) nx nc (r_x x) -> (i < nc)%nat ->
  derivable_pt_lim (fun t => (resto_c Z (rmove x t v)).[i]) 0 (rj_mul (resto_Jc Z x) v).[i].
Proof.
  intros Hx Hv J Hi. destruct (jc_is x v Hx Hv) as [_ E]. rewrite E by exact Hi.
  eapply dlim_ext; [|replace (Jv (fn_Jc P (r_x x)) (r_x v) i + (r_nc v).[i] - (r_pc v).[i]) with (Jv (fn_Jc P (r_x x)) (r_x v) i + ((r_nc v).[i] - (r_pc v).[i])) by ring;
    apply (dlim_add_affine (fun t => (fn_c P (vmove (r_x x) t (r_x v))).[i]) _ ((r_nc x).[i] - (r_pc x).[i])); apply (J (r_x v) (proj1 Hv) i Hi)].
  intros t. cbv beta. destruct (c_is (rmove x t v) (rv_move x t v Hx)) as [_ C]. rewrite C by exact Hi. unfold rmove. cbn [r_x r_nc r_pc].
  destruct Hx as (X1 & X2 & X3 & X4 & X5). rewrite !vmove_el by congruence. ring.
Qed.
Lemma d_diff x v i : rv_ok nx nd nc x -> rv_ok nx nd nc v -> jac_right (fn_d P) (fn_Jd P) nx nd (r_x x) -> (i < nd)%nat ->
  derivable_pt_lim (fun t => (resto_d Z (rmove x t v)).[i]) 0 (rj_mul (resto_Jd Z x) v).[i].
Proof.
  intros Hx Hv J Hi. destruct (jd_is x v Hx Hv) as [_ E]. rewrite E by exact Hi.
  eapply dlim_ext; [|replace (Jv (fn_Jd P (r_x x)) (r_x v) i + (r_nd v).[i] - (r_pd v).[i]) with (Jv (fn_Jd P (r_x x)) (r_x v) i + ((r_nd v).[i] - (r_pd v).[i])) by ring;
    apply (dlim_add_affine (fun t => (fn_d P (vmove (r_x x) t (r_x v))).[i]) _ ((r_nd x).[i] - (r_pd x).[i])); apply (J (r_x v) (proj1 Hv) i Hi)].
  intros t. cbv beta. destruct (d_is (rmove x t v) (rv_move x t v Hx)) as [_ C]. rewrite C by exact Hi. unfold rmove. cbn [r_x r_nd r_pd].
  destruct Hx as (X1 & X2 & X3 & X4 & X5). rewrite !vmove_el by congruence. ring.
Qed.
(** ** Hessian *)
Lemma jt_is J y n m : length y = m -> mr J = m -> mc J = n -> vec_is (mtmul J 1 y 0 []) n (fun j => JTv J y j).
Proof. intros L M1 M2. eapply vis_ext; [eapply mtmul_is; [apply (vis_self _ _ L)|exact M2|exact M1]|]. intros j _. cbv beta. unfold JTv. rewrite M1. ring. Qed.
Definition bdim (k : nat) : nat := match k with 0 => nx | 1 | 2 => nc | _ => nd end%nat.
Lemma h_diff x v of_ yc yd mu k i : rv_ok nx nd nc x -> rv_ok nx nd nc v -> length yc = nc -> length yd = nd ->
  mr (fn_h P (r_x x) 0 yc yd) = nx /\ mc (fn_h P (r_x x) 0 yc yd) = nx -> hess_right Z (r_x x) yc yd -> (k < 5)%nat -> (i < bdim k)%nat ->
  derivable_pt_lim (fun t => rlag Z of_ yc yd mu (rmove x t v) k i) 0 (rpart k (rh_mul nc nd (resto_h Z x of_ yc yd mu) v)).[i].
Proof.
  intros Hx Hv Lc Ld [H1 H2] HH Hk Hi. unfold rlag.
  assert (V0 : forall n j, (vset n 0).[j] = 0).
  { intros n j. destruct (lt_dec j n) as [Hj|Hj]; [apply (vset_is n 0); exact Hj|]. apply nth_overflow. unfold vset. rewrite mk_len. lia. }
  assert (CC : forall F, (forall s t, F s = F t) -> derivable_pt_lim F 0 0).
  { intros F E. apply (dlim_ext (fun _ => F 0)); [intros t; apply E|apply derivable_pt_lim_const]. }
  destruct k as [|[|[|[|[|k]]]]]; [|cbn [rpart rh_mul r_nc r_pc r_nd r_pd resto_h]; rewrite V0; apply CC; intros s t; cbn [rpart resto_g rj_tmul resto_Jc resto_Jd r_nc r_pc r_nd r_pd j_nc j_pc j_nd j_pd id_t rmove]; unfold dim; rewrite !vmove_len; reflexivity ..|lia].
  cbn [rpart bdim] in *. unfold rh_mul, resto_h. cbn [r_x].
  assert (E1 : vec_is (axpy (of_ * eta Z mu) (emul (r_x v) (dr2_x Z)) (mmul (fn_h P (r_x x) 0 yc yd) 1 (r_x v) 0 [])) nx
     (fun i => Jv (fn_h P (r_x x) 0 yc yd) (r_x v) i + of_ * eta Z mu * ((r_x v).[i] * (DR Z i * DR Z i)))).
  { eapply vis_ext; [apply axpy_is; [apply emul_is; [apply (vis_self _ _ (proj1 Hv))|exact dr2_is]|eapply mmul_is; [apply (vis_self _ _ (proj1 Hv))|exact H2|exact H1]]|].
    intros j _. cbv beta. unfold Jv. rewrite H2. ring. }
  destruct E1 as [_ E1]. rewrite E1 by exact Hi.
  eapply dlim_ext; [|apply (dlim_add_affine (fun t => JTv (fn_Jc P (vmove (r_x x) t (r_x v))) yc i + JTv (fn_Jd P (vmove (r_x x) t (r_x v))) yd i) _ (of_ * eta Z mu * (DR Z i * DR Z i * ((r_x x).[i] - (z_ref Z).[i])))); apply (HH (r_x v) (proj1 Hv) i Hi)].
  intros t. cbv beta. destruct (g_is (rmove x t v) mu (rv_move x t v Hx)) as [_ G]. rewrite G by exact Hi.
  unfold rj_tmul, resto_Jc, resto_Jd. cbn [r_x j_0]. unfold rmove. cbn [r_x].
  destruct (p_Jc _ HP (vmove (r_x x) t (r_x v))) as [A1 A2]. destruct (p_Jd _ HP (vmove (r_x x) t (r_x v))) as [A3 A4].
  destruct (jt_is _ yc nx nc Lc A1 A2) as [_ T1]. destruct (jt_is _ yd nx nd Ld A3 A4) as [_ T2]. rewrite T1, T2 by exact Hi.
  rewrite vmove_el by (rewrite (proj1 Hx); exact Hi). ring.
Qed.

(** ** starting point *)
Lemma split_is mu c n : length c = n -> vec_is (fst (split Z mu c)) n (fun i => mu / (2 * z_rho Z) - c.[i] / 2 + sqrt ((mu / (2 * z_rho Z) - c.[i] / 2) * (mu / (2 * z_rho Z) - c.[i] / 2) + mu / (2 * z_rho Z) * c.[i]))
  /\ vec_is (snd (split Z mu c)) n (fun i => c.[i] + (fst (split Z mu c)).[i]).
Proof.
  intros L. pose proof (vis_self c n L) as V. unfold split. cbn [fst snd].
  set (a := axpy (-/2) c (vset (dim c) (mu / (2 * z_rho Z)))). set (b := vmap (Rmult (mu / (2 * z_rho Z))) c).
  assert (A : vec_is a n (fun i => mu / (2 * z_rho Z) - c.[i] / 2)).
  { eapply vis_ext; [apply axpy_is; [exact V|unfold dim; rewrite L; apply vset_is]|]. intros i _. cbv beta. unfold Rdiv. ring. }
  assert (B : vec_is b n (fun i => mu / (2 * z_rho Z) * c.[i])) by (apply vmap_is; exact V).
  assert (Q : vec_is (solve_quadratic a b) n (fun i => mu / (2 * z_rho Z) - c.[i] / 2 + sqrt ((mu / (2 * z_rho Z) - c.[i] / 2) * (mu / (2 * z_rho Z) - c.[i] / 2) + mu / (2 * z_rho Z) * c.[i]))).
  { unfold solve_quadratic. eapply vis_ext; [apply axpy_is; [exact A|apply vmap_is; apply axpy_is; [exact B|apply emul_is; exact A]]|]. intros i _. cbv beta. rewrite Rmult_1_l, (Rplus_comm (sqrt _)). f_equal. ring. }
  split; [exact Q|]. eapply vis_ext; [apply axpy_is; [apply (vis_self _ n (proj1 Q))|exact V]|]. intros i _. cbv beta. ring.
Qed.
(** one component: n and p are positive and stationary *)
Lemma split_num mu rho c : 0 < mu -> 0 < rho -> let m := mu / (2 * rho) in let n := m - c / 2 + sqrt ((m - c / 2) * (m - c / 2) + m * c) in
  0 < n /\ 0 < c + n /\ mu / n + mu / (c + n) = 2 * rho.
Proof.
  intros Hm Hr. cbv zeta. assert (M : 0 < mu / (2 * rho)) by (apply Rdiv_lt_0_compat; lra). set (m := mu / (2 * rho)) in *.
  assert (E : (m - c / 2) * (m - c / 2) + m * c = m * m + c / 2 * (c / 2)) by field. rewrite E.
  assert (SQ : 0 < m * m + c / 2 * (c / 2)) by nra. set (r := sqrt (m * m + c / 2 * (c / 2))).
  assert (R1 : r * r = m * m + c / 2 * (c / 2)) by (apply sqrt_sqrt; lra). assert (R2 : 0 < r) by (apply sqrt_lt_R0; exact SQ).
  assert (N1 : 0 < m - c / 2 + r) by nra. assert (N2 : 0 < c + (m - c / 2 + r)) by nra. splits; [exact N1|exact N2|].
  assert (MU : mu = 2 * rho * m) by (unfold m; field; lra).
  set (n := m - c / 2 + r) in *.
  assert (K : m * (2 * n + c) = n * (c + n)).
  { unfold n. nra. }
  rewrite MU. apply (Rmult_eq_reg_r (n * (c + n))); [|nra].
  replace ((2 * rho * m / n + 2 * rho * m / (c + n)) * (n * (c + n))) with (2 * rho * (m * (2 * n + c))) by (field; lra). rewrite K. ring.
Qed.
Lemma ln_tangent a b : 0 < a -> 0 < b -> ln b <= ln a + (b - a) / a.
Proof.
  intros Ha Hb. assert (0 < b / a) by (apply Rdiv_lt_0_compat; lra).
  pose proof (exp_ineq1_le (ln (b / a))) as X. rewrite exp_ln in X by assumption. unfold Rdiv in X at 1. rewrite ln_mult, ln_Rinv in X by (try apply Rinv_0_lt_compat; lra).
  replace ((b - a) / a) with (b / a - 1) by (field; lra). lra.
Qed.
Lemma split_opt mu rho c n p n' p' : 0 < mu -> 0 < n -> 0 < p -> 0 < n' -> 0 < p' -> mu / n + mu / p = 2 * rho -> c + n - p = 0 -> c + n' - p' = 0 ->
  rho * (n + p) - mu * (ln n + ln p) <= rho * (n' + p') - mu * (ln n' + ln p').
Proof.
  intros Hm H1 H2 H3 H4 S E1 E2. pose proof (ln_tangent n n' H1 H3) as T1. pose proof (ln_tangent p p' H2 H4) as T2.
  assert (D : p' - p = n' - n) by lra. rewrite D in T2.
  assert (K : mu * ((n' - n) / n + (n' - n) / p) = 2 * rho * (n' - n)).
  { rewrite <- S. field. lra. }
  assert (mu * (ln n' + ln p') <= mu * (ln n + ln p) + 2 * rho * (n' - n)).
  { rewrite <- K, <- Rmult_plus_distr_l. apply Rmult_le_compat_l; lra. }
  nra.
Qed.
End Prob.
