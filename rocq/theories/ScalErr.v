(** Proofs about the unscaled errors, the gradient-based factors (exact and IEEE)
    and the case without scaling. *)
From Coq Require Import List Bool Arith Lia ZArith Reals Lra.
From Flocq Require Import Core BinarySingleNaN.
From Verif Require Import Num VecModel ScalModel ScalSpec ScalProofs InitNum.
Import ListNotations.
Local Open Scope R_scope.

Lemma norm_abs nt vs ws : map Rabs (concat vs) = map Rabs (concat ws) -> norm_spec nt vs = norm_spec nt ws.
Proof.
  intros E. unfold norm_spec. destruct nt; [rewrite E; auto| |rewrite E; auto].
  assert (G : forall l, map (fun a => a * a) l = map (fun a => a * a) (map Rabs l)).
  { intros l. rewrite map_map. apply map_ext. intros a. rewrite <- Rabs_mult. rewrite Rabs_right; auto.
    pose proof (Rle_0_sqr a). unfold Rsqr in *. lra. }
  rewrite (G (concat vs)), (G (concat ws)), E. reflexivity.
Qed.
Lemma norm_nonneg nt vs : 0 <= norm_spec nt vs.
Proof.
  unfold norm_spec. destruct nt.
  - induction (concat vs); cbn [map fold_right]; [lra|]. pose proof (Rabs_pos a). lra.
  - apply sqrt_pos.
  - apply fr_max_nonneg.
Qed.
Lemma norm_hom nt k vs : norm_spec nt (map (map (Rmult k)) vs) = Rabs k * norm_spec nt vs.
Proof.
  unfold norm_spec. rewrite <- concat_map. pose proof (Rabs_pos k). destruct nt.
  - induction (concat vs) as [|a l IH]; cbn [map fold_right]; [ring|]. rewrite IH, Rabs_mult. ring.
  - replace (fold_right Rplus 0 (map (fun a => a * a) (map (Rmult k) (concat vs))))
      with ((k * k) * fold_right Rplus 0 (map (fun a => a * a) (concat vs))).
    + rewrite sqrt_mult; [| |apply sq_nonneg]; [|pose proof (Rle_0_sqr k); unfold Rsqr in *; lra].
      f_equal. apply sqrt_Rsqr_abs.
    + induction (concat vs) as [|a l IH]; cbn [map fold_right]; [ring|]. rewrite <- IH. ring.
  - induction (concat vs) as [|a l IH]; cbn [map fold_right]; [ring|]. rewrite IH, Rabs_mult, RmaxRmult; auto.
Qed.

Lemma abs_min a : Rabs (Rmin a 0) = Rabs (Rmax (- a) 0).
Proof. unfold Rmin, Rmax, Rabs. repeat (destruct Rle_dec || destruct Rcase_abs); lra. Qed.

Section Real.
Variable lg : R -> R.
Notation OR := (R_ops lg).
Variables (n mc md : nat) (s : scaling (T := R)) (p : nlp (T := R)).
Hypothesis OK : okscal n mc md s.
Hypothesis SH : shape n mc md p.

Lemma nth_seq_map (f : nat -> R) m j : (j < m)%nat -> nth j (map f (seq 0 m)) 0 = f j.
Proof.
  intros J. rewrite nth_indep with (d' := f 0%nat) by (rewrite map_length, seq_length; auto).
  rewrite map_nth, seq_nth; auto.
Qed.
Lemma user_v_len pos v : length v = length pos -> length (user_v s pos v) = length pos.
Proof. intros L. unfold user_v. apply map2_len. auto. Qed.
Lemma zat_user pos v j : NoDup pos -> length v = length pos -> zat pos (user_v s pos v) j = fac (sd s) j / sf s * zat pos v j.
Proof.
  intros P L. apply (zat_map lg (fun j => fac (sd s) j / sf s) (user_v s pos)); auto.
  - intros k K E. unfold user_v. rewrite (map2_nth _ _ _ _ 0%nat 0); auto. rewrite E. reflexivity.
  - apply user_v_len; auto.
Qed.
Lemma fin_yd_nth y i : length y = md -> nth i (fin_yd OR s y) 0 = fac (sd s) i / sf s * nth i y 0.
Proof.
  intros L. unfold fin_yd. rewrite vscal_nth. unfold apply_d. rewrite (vmul_nth lg md); auto; [|apply OK].
  unfold unapply_obj. cbn [R_ops tdiv t1]. field. apply OK.
Qed.
Lemma fin_yc_nth y i : length y = mc -> nth i (fin_yc OR s y) 0 = fac (sc s) i / sf s * nth i y 0.
Proof.
  intros L. unfold fin_yc. rewrite vscal_nth. unfold apply_c. rewrite (vmul_nth lg mc); auto; [|apply OK].
  unfold unapply_obj. cbn [R_ops tdiv t1]. field. apply OK.
Qed.

Lemma dual_inf_R nt lpos upos slpos supos x yc yd zl zu vl vu :
  length x = n -> length yc = mc -> length yd = md -> okpos n lpos -> okpos n upos -> okpos md slpos -> okpos md supos ->
  length zl = length lpos -> length zu = length upos -> length vl = length slpos -> length vu = length supos ->
  unscaled_dual_inf OR nt s p lpos upos slpos supos x yc yd zl zu vl vu
  = norm_spec nt
      [map (lag_res p lpos upos (fin_x OR s x) (fin_yc OR s yc) (fin_yd OR s yd) (fin_z OR s n lpos zl) (fin_z OR s n upos zu)) (seq 0 n);
       map (slack_res slpos supos (fin_yd OR s yd) (user_v s slpos vl) (user_v s supos vu)) (seq 0 md)].
Proof.
  intros Hx Hc Hd Pl Pu Psl Psu Ll Lu Lvl Lvu. unfold unscaled_dual_inf. rewrite norm_R. f_equal. f_equal; [|f_equal].
  - apply list_eq_nth.
    + unfold unapply_grad. rewrite vscal_len. unfold apply_x. rewrite (vmul_len lg n); auto; [|apply OK|eapply grad_lag_len; eauto].
      rewrite map_length, seq_length. auto.
    + intros j J. unfold unapply_grad in *. rewrite vscal_len in J. unfold apply_x in *.
      rewrite (vmul_len lg n) in J; auto; [|apply OK|eapply grad_lag_len; eauto].
      rewrite vscal_nth, (vmul_nth lg n); auto; [|apply OK|eapply grad_lag_len; eauto].
      rewrite nth_seq_map by auto. rewrite (grad_lag_R lg n mc md) by auto. unfold unapply_obj. cbn [R_ops tdiv t1].
      field. split; [apply (fac_nz n)|]; auto; apply OK.
  - apply list_eq_nth.
    + rewrite vscal_len. unfold apply_d. rewrite (vmul_len lg md), map_length, seq_length; auto; [apply OK|].
      unfold grad_lag_s. rewrite axpy_len; rewrite expand_into_len, expand_len; auto.
    + assert (LL : length (grad_lag_s OR slpos supos yd vl vu) = md).
      { unfold grad_lag_s. rewrite axpy_len; rewrite expand_into_len, expand_len; auto. }
      intros i J. rewrite vscal_len in J. unfold apply_d in *. rewrite (vmul_len lg md) in J; auto; [|apply OK].
      rewrite vscal_nth, (vmul_nth lg md); auto; [|apply OK]. rewrite nth_seq_map by auto.
      unfold grad_lag_s. rewrite axpy_nth by (rewrite expand_into_len, expand_len; auto).
      rewrite expand_into_nth by (rewrite expand_len; lia). rewrite expand_nth by lia.
      unfold slack_res. rewrite fin_yd_nth, !zat_user; auto; try apply Psl; try apply Psu.
      unfold unapply_obj. cbn [R_ops tdiv t1 tm1]. field. apply OK.
Qed.

Lemma ud_back x : length x = n -> unapply_d OR s (s_d OR s p x) = n_d p (unapply_x OR s x).
Proof.
  intros Hx. assert (L : length (n_d p (unapply_x OR s x)) = md) by (apply SH, (ux_len lg n mc md); auto).
  unfold unapply_d, s_d, apply_d. destruct OK as (Of & Ox & Oc & Od). apply list_eq_nth.
  - rewrite (vdiv_len lg md); auto. apply vmul_len; auto.
  - intros j J. rewrite (vdiv_len lg md) in J; auto; [|apply vmul_len; auto].
    rewrite (vdiv_nth lg md); auto; [|apply vmul_len; auto]. rewrite (vmul_nth lg md) by auto. field. apply (fac_nz md); auto.
Qed.
Lemma uc_back x : length x = n -> unapply_c OR s (s_c OR s p x) = n_c p (unapply_x OR s x).
Proof.
  intros Hx. assert (L : length (n_c p (unapply_x OR s x)) = mc) by (apply SH, (ux_len lg n mc md); auto).
  unfold unapply_c, s_c, apply_c. destruct OK as (Of & Ox & Oc & Od). apply list_eq_nth.
  - rewrite (vdiv_len lg mc); auto. apply vmul_len; auto.
  - intros j J. rewrite (vdiv_len lg mc) in J; auto; [|apply vmul_len; auto].
    rewrite (vdiv_nth lg mc); auto; [|apply vmul_len; auto]. rewrite (vmul_nth lg mc) by auto. field. apply (fac_nz mc); auto.
Qed.

(** the two violation vectors *)
Lemma viol_nth pos bnd x k : length x = n -> okpos md pos -> length bnd = length pos -> (k < length pos)%nat ->
  nth k (pick OR pos (unapply_d OR s (expand_into OR pos (t1 OR) (apply_d_LU OR s md pos bnd) (vscal OR (tm1 OR) (s_d OR s p x))))) 0
  = nth k bnd 0 - nth (nth k pos 0%nat) (n_d p (unapply_x OR s x)) 0.
Proof.
  intros Hx P L K. pose proof (okpos_lt _ _ _ P K) as PN. rewrite pick_nth by auto. destruct OK as (Of & Ox & Oc & Od).
  assert (LD : length (n_d p (unapply_x OR s x)) = md) by (apply SH, (ux_len lg n mc md); auto).
  assert (LS : length (s_d OR s p x) = md) by (unfold s_d, apply_d; apply vmul_len; auto).
  unfold unapply_d. rewrite (vdiv_nth lg md); auto; [|rewrite expand_into_len, vscal_len; auto].
  rewrite expand_into_nth by (rewrite vscal_len; lia). rewrite vscal_nth. destruct P as [ND FP].
  rewrite zat_in; auto; [|apply LUd_len; auto]. rewrite (LUd_nth lg md); auto; [|split; auto].
  unfold s_d, apply_d. rewrite (vmul_nth lg md) by auto. cbn [R_ops t1 tm1]. field. apply (fac_nz md); auto.
Qed.

Lemma viol_R nt slpos supos dl du x :
  length x = n -> okpos md slpos -> okpos md supos -> length dl = length slpos -> length du = length supos ->
  unscaled_viol OR nt s p slpos supos (apply_d_LU OR s md slpos dl) (apply_d_LU OR s md supos du) x
  = norm_spec nt [n_c p (fin_x OR s x); below slpos (n_d p (fin_x OR s x)) dl; above supos (n_d p (fin_x OR s x)) du].
Proof.
  intros Hx P1 P2 L1 L2. unfold unscaled_viol. rewrite norm_R. apply norm_abs. cbn [concat]. rewrite !app_nil_r.
  rewrite !map_app, uc_back by auto. unfold fin_x. f_equal. f_equal.
  - f_equal. apply list_eq_nth.
    + rewrite map_length, pick_len. unfold below. rewrite map2_len; auto.
    + intros k K. rewrite map_length, pick_len in K.
      rewrite nth_map0 by (rewrite tmax_Rmax; apply Rmax_left; cbn; lra).
      rewrite viol_nth by auto. unfold below. rewrite (map2_nth _ _ _ _ 0%nat 0) by auto. rewrite tmax_Rmax. reflexivity.
  - apply list_eq_nth.
    + rewrite !map_length, pick_len. unfold above. rewrite map2_len; auto.
    + intros k K. rewrite !map_length, pick_len in K.
      rewrite !nth_map0; try (apply Rabs_R0); try (rewrite tmin_Rmin; apply Rmin_left; cbn; lra).
      rewrite viol_nth by auto. unfold above. rewrite (map2_nth _ _ _ _ 0%nat 0) by auto. rewrite tmin_Rmin. cbn [R_ops t0].
      unfold pos_part. rewrite abs_min. f_equal. f_equal. ring.
Qed.

(** complementarity *)
Lemma comp_x_low pos x xl z : length x = n -> okpos n pos -> length xl = length pos -> length z = length pos ->
  compl OR (slack_L OR pos x (apply_x_LU OR s n pos xl)) z = map (Rmult (sf s)) (prod_low pos (fin_x OR s x) xl (fin_z OR s n pos z)).
Proof.
  intros Hx P L1 L2. destruct OK as (Of & Ox & Oc & Od).
  assert (LL : length (apply_x_LU OR s n pos xl) = length pos) by (apply LU_len; auto).
  assert (LF : length (fin_z OR s n pos z) = length pos) by (apply (fin_z_len lg); auto).
  assert (LS : length (slack_L OR pos x (apply_x_LU OR s n pos xl)) = length pos) by (unfold slack_L; rewrite map2_len; rewrite ?pick_len; auto).
  apply list_eq_nth.
  - unfold compl. rewrite map2_len by lia. rewrite map_length. unfold prod_low. rewrite map3_len; congruence.
  - unfold compl. rewrite map2_len by lia. intros k K. rewrite LS in K. pose proof (okpos_lt _ _ _ P K) as PN.
    rewrite (map2_nth _ _ _ _ 0 0) by lia. rewrite nth_map0 by ring. unfold prod_low. rewrite (map3_nth _ _ _ _ _ 0%nat 0 0) by congruence.
    unfold slack_L. rewrite (map2_nth _ _ _ _ 0 0) by (rewrite ?pick_len; lia). rewrite pick_nth by auto.
    rewrite (LU_nth lg n) by auto. rewrite (fin_z_nth lg n mc md s OK) by auto. unfold fin_x, unapply_x. rewrite (vdiv_nth lg n) by auto.
    cbn [R_ops tadd tmul topp]. field. split; auto. apply (fac_nz n); auto.
Qed.
Lemma comp_x_upp pos x xu z : length x = n -> okpos n pos -> length xu = length pos -> length z = length pos ->
  compl OR (slack_U OR pos x (apply_x_LU OR s n pos xu)) z = map (Rmult (sf s)) (prod_upp pos (fin_x OR s x) xu (fin_z OR s n pos z)).
Proof.
  intros Hx P L1 L2. destruct OK as (Of & Ox & Oc & Od).
  assert (LL : length (apply_x_LU OR s n pos xu) = length pos) by (apply LU_len; auto).
  assert (LF : length (fin_z OR s n pos z) = length pos) by (apply (fin_z_len lg); auto).
  assert (LS : length (slack_U OR pos x (apply_x_LU OR s n pos xu)) = length pos) by (unfold slack_U; rewrite map2_len; rewrite ?pick_len; auto).
  apply list_eq_nth.
  - unfold compl. rewrite map2_len by lia. rewrite map_length. unfold prod_upp. rewrite map3_len; congruence.
  - unfold compl. rewrite map2_len by lia. intros k K. rewrite LS in K. pose proof (okpos_lt _ _ _ P K) as PN.
    rewrite (map2_nth _ _ _ _ 0 0) by lia. rewrite nth_map0 by ring. unfold prod_upp. rewrite (map3_nth _ _ _ _ _ 0%nat 0 0) by congruence.
    unfold slack_U. rewrite (map2_nth _ _ _ _ 0 0) by (rewrite ?pick_len; lia). rewrite pick_nth by auto.
    rewrite (LU_nth lg n) by auto. rewrite (fin_z_nth lg n mc md s OK) by auto. unfold fin_x, unapply_x. rewrite (vdiv_nth lg n) by auto.
    cbn [R_ops tsub tmul]. field. split; auto. apply (fac_nz n); auto.
Qed.
Lemma comp_s_low pos sv dl v : length sv = md -> okpos md pos -> length dl = length pos -> length v = length pos ->
  compl OR (slack_L OR pos sv (apply_d_LU OR s md pos dl)) v = map (Rmult (sf s)) (prod_low pos (fin_d OR s sv) dl (user_v s pos v)).
Proof.
  intros Hx P L1 L2. destruct OK as (Of & Ox & Oc & Od).
  assert (LL : length (apply_d_LU OR s md pos dl) = length pos) by (apply LUd_len; auto).
  assert (LF : length (user_v s pos v) = length pos) by (apply user_v_len; auto).
  assert (LS : length (slack_L OR pos sv (apply_d_LU OR s md pos dl)) = length pos) by (unfold slack_L; rewrite map2_len; rewrite ?pick_len; auto).
  apply list_eq_nth.
  - unfold compl. rewrite map2_len by lia. rewrite map_length. unfold prod_low. rewrite map3_len; congruence.
  - unfold compl. rewrite map2_len by lia. intros k K. rewrite LS in K. pose proof (okpos_lt _ _ _ P K) as PN.
    rewrite (map2_nth _ _ _ _ 0 0) by lia. rewrite nth_map0 by ring. unfold prod_low. rewrite (map3_nth _ _ _ _ _ 0%nat 0 0) by congruence.
    unfold slack_L. rewrite (map2_nth _ _ _ _ 0 0) by (rewrite ?pick_len; lia). rewrite pick_nth by auto.
    rewrite (LUd_nth lg md) by auto. unfold user_v. rewrite (map2_nth _ _ _ _ 0%nat 0) by auto. unfold fin_d, unapply_d. rewrite (vdiv_nth lg md) by auto.
    cbn [R_ops tadd tmul topp]. field. split; auto. apply (fac_nz md); auto.
Qed.
Lemma comp_s_upp pos sv du v : length sv = md -> okpos md pos -> length du = length pos -> length v = length pos ->
  compl OR (slack_U OR pos sv (apply_d_LU OR s md pos du)) v = map (Rmult (sf s)) (prod_upp pos (fin_d OR s sv) du (user_v s pos v)).
Proof.
  intros Hx P L1 L2. destruct OK as (Of & Ox & Oc & Od).
  assert (LL : length (apply_d_LU OR s md pos du) = length pos) by (apply LUd_len; auto).
  assert (LF : length (user_v s pos v) = length pos) by (apply user_v_len; auto).
  assert (LS : length (slack_U OR pos sv (apply_d_LU OR s md pos du)) = length pos) by (unfold slack_U; rewrite map2_len; rewrite ?pick_len; auto).
  apply list_eq_nth.
  - unfold compl. rewrite map2_len by lia. rewrite map_length. unfold prod_upp. rewrite map3_len; congruence.
  - unfold compl. rewrite map2_len by lia. intros k K. rewrite LS in K. pose proof (okpos_lt _ _ _ P K) as PN.
    rewrite (map2_nth _ _ _ _ 0 0) by lia. rewrite nth_map0 by ring. unfold prod_upp. rewrite (map3_nth _ _ _ _ _ 0%nat 0 0) by congruence.
    unfold slack_U. rewrite (map2_nth _ _ _ _ 0 0) by (rewrite ?pick_len; lia). rewrite pick_nth by auto.
    rewrite (LUd_nth lg md) by auto. unfold user_v. rewrite (map2_nth _ _ _ _ 0%nat 0) by auto. unfold fin_d, unapply_d. rewrite (vdiv_nth lg md) by auto.
    cbn [R_ops tsub tmul]. field. split; auto. apply (fac_nz md); auto.
Qed.
Lemma compl_R nt vs : unscaled_compl OR nt s (map (map (Rmult (sf s))) vs) = norm_spec nt vs.
Proof.
  unfold unscaled_compl. rewrite norm_R, norm_hom. unfold unapply_obj. cbn [R_ops tabs tdiv].
  destruct OK as (Of & _). unfold Rdiv. rewrite !Rabs_mult, Rabs_Rabsolu. rewrite (Rabs_right (norm_spec nt vs)).
  - rewrite Rmult_comm, <- Rmult_assoc, <- Rabs_mult. rewrite Rinv_l by auto. rewrite Rabs_R1. ring.
  - apply Rle_ge, norm_nonneg.
Qed.
End Real.
