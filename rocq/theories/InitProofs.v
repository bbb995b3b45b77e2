(** Proofs for C30, C31, C47 over real numbers. *)
From Coq Require Import List Bool ZArith Reals Lra Lia.
From Flocq Require Import Core BinarySingleNaN.
From Verif Require Import Num VecModel InitModel InitSpec.
Import ListNotations.
Local Open Scope R_scope.

Section RR.
Variable lg : R -> R.
Local Notation O := (R_ops lg).

Lemma tmax_R a b : tmax O a b = Rmax a b.
Proof. unfold tmax, Rmax; cbn. destruct (Rlt_bool_spec a b), (Rle_dec a b); lra. Qed.
Lemma tmin_R a b : tmin O a b = Rmin a b.
Proof. unfold tmin, Rmin; cbn. destruct (Rlt_bool_spec b a), (Rle_dec a b); lra. Qed.

Lemma amax_fold l : forall m, 0 <= m ->
  0 <= fold_left (fun m y => if Rlt_bool m (Rabs y) then Rabs y else m) l m /\
  (fold_left (fun m y => if Rlt_bool m (Rabs y) then Rabs y else m) l m <= 0 -> m = 0 /\ Forall (fun x => x = 0) l).
Proof.
  induction l as [|y l IH]; intros m Hm; cbn.
  - split; [assumption|]. intros. split; [lra|constructor].
  - destruct (Rlt_bool_spec m (Rabs y)) as [L|L].
    + destruct (IH (Rabs y) (Rabs_pos y)) as [A B]. split; [assumption|]. intros H. destruct (B H). lra.
    + destruct (IH m Hm) as [A B]. split; [assumption|]. intros H. destruct (B H) as [C D]. split; [assumption|].
      constructor; [|assumption]. destruct (Req_dec y 0) as [E|E]; [assumption|]. apply Rabs_pos_lt in E. lra.
Qed.
Lemma amax_zero l : tlt O (t0 O) (blas_amax O l) = false -> Forall (fun x => x = 0) l.
Proof.
  cbn. destruct l as [|y l]; [constructor|]. unfold blas_amax; cbn.
  destruct (amax_fold l (Rabs y) (Rabs_pos y)) as [A B].
  destruct (Rlt_bool_spec 0 (fold_left (fun m y => if Rlt_bool m (Rabs y) then Rabs y else m) l (Rabs y))) as [L|L]; [discriminate|].
  intros _. destruct (B L) as [C D]. constructor; [|assumption]. destruct (Req_dec y 0) as [E|E]; [assumption|]. apply Rabs_pos_lt in E. lra.
Qed.
Lemma somes_zero (cl : var (T:=R) -> option R) vs : Forall (fun x => x = 0) (somes (map cl vs)) ->
  forall v c, In v vs -> cl v = Some c -> c = 0.
Proof.
  induction vs as [|w vs IH]; cbn; [contradiction|]. intros F v c [->|I] E.
  - rewrite E in F. now inversion F.
  - apply (IH) with v; try assumption. apply Forall_app in F. apply F.
Qed.
Definition r0 (o : option R) : R := match o with Some c => c | None => 0 end.
Lemma apply_corr_R cl cu vs :
  apply_corr O cl cu vs = map (fun v => VAR (v_x v + r0 (cl v) - r0 (cu v)) (v_lo v) (v_up v)) vs.
Proof.
  unfold apply_corr.
  destruct (tlt O (t0 O) (blas_amax O (somes (map cl vs)))) eqn:L, (tlt O (t0 O) (blas_amax O (somes (map cu vs)))) eqn:U; cbn [orb].
  - apply map_ext. intros v. f_equal. destruct (cl v), (cu v); cbn; lra.
  - pose proof (somes_zero _ _ (amax_zero _ U)) as Z. apply map_ext_in. intros v I. f_equal. specialize (Z v).
    destruct (cl v), (cu v); cbn; try rewrite (Z _ I eq_refl); lra.
  - pose proof (somes_zero _ _ (amax_zero _ L)) as Z. apply map_ext_in. intros v I. f_equal. specialize (Z v).
    destruct (cl v), (cu v); cbn; try rewrite (Z _ I eq_refl); lra.
  - pose proof (somes_zero _ _ (amax_zero _ U)) as Z. pose proof (somes_zero _ _ (amax_zero _ L)) as Z'.
    rewrite <- map_id at 1. apply map_ext_in. intros v I. specialize (Z v); specialize (Z' v). destruct v as [x l u]; cbn in *. f_equal.
    destruct (cl (VAR x l u)), (cu (VAR x l u)); cbn; try rewrite (Z _ I eq_refl); try rewrite (Z' _ I eq_refl); lra.
Qed.

Lemma recip_min p q : 0 < p -> 0 < q -> 1 / Rmax (1 / p) (1 / q) = Rmin p q.
Proof.
  intros P Q. unfold Rmax, Rmin. destruct (Rle_dec (1 / p) (1 / q)) as [A|A], (Rle_dec p q) as [B|B]; try (field; lra).
  - assert (p = q). { apply Rle_antisym; [assumption|]. apply (Rmult_le_compat_r p) in A; [|lra]. apply (Rmult_le_compat_r q) in A; [|lra].
      replace (1 / p * p * q) with q in A by (field; lra). replace (1 / q * p * q) with p in A by (field; lra). assumption. } subst. field; lra.
  - exfalso. apply A. apply Rnot_le_lt in B. unfold Rdiv. rewrite !Rmult_1_l. apply Rlt_le, Rinv_lt_contravar; [nra|assumption].
Qed.
Lemma recip_neg p q : 0 < p -> q < 0 -> 1 / Rmax (1 / p) (1 / q) = p.
Proof.
  intros P Q. assert (A : 1 / q < 0) by (unfold Rdiv; rewrite Rmult_1_l; now apply Rinv_lt_0_compat).
  assert (B : 0 < 1 / p) by (unfold Rdiv; rewrite Rmult_1_l; now apply Rinv_0_lt_compat).
  rewrite Rmax_left by lra. field; lra.
Qed.

Section Push.
Variables (tiny push frac : R).
Hypotheses (Ht : 0 < tiny) (Hp : 0 < push) (Hf : 0 < frac <= 1 / 2).

Lemma push_abs b : Rmax (Rabs (push * b)) push = push * Rmax 1 (Rabs b).
Proof.
  rewrite Rabs_mult, (Rabs_pos_eq push) by lra. rewrite <- (RmaxRmult 1 (Rabs b)) by lra. rewrite Rmult_1_r. apply Rmax_comm.
Qed.
Lemma push_pos b : 0 < push * Rmax 1 (Rabs b).
Proof. apply Rmult_lt_0_compat; [assumption|]. pose proof (Rmax_l 1 (Rabs b)). lra. Qed.
Lemma p_low_R l up : (forall u, up = Some u -> tiny < frac * (u - l)) ->
  p_low O tiny push frac l up = wanted_low push frac tiny l up.
Proof.
  intros H. unfold p_low, q_low, wanted_low. rewrite !tmax_R. cbn. rewrite push_abs. pose proof (push_pos l).
  destruct up as [u|]; [specialize (H u eq_refl); rewrite recip_min by lra; reflexivity|apply recip_neg; lra].
Qed.
Lemma p_upp_R u lo : (forall l, lo = Some l -> tiny < frac * (u - l)) ->
  p_upp O tiny push frac u lo = wanted_upp push frac tiny u lo.
Proof.
  intros H. unfold p_upp, q_upp, wanted_upp. rewrite !tmax_R. cbn. rewrite push_abs. pose proof (push_pos u).
  destruct lo as [l|]; [specialize (H l eq_refl); rewrite recip_min by lra; lra|rewrite recip_neg by lra; lra].
Qed.
Lemma wanted_low_pos l up : (forall u, up = Some u -> tiny < frac * (u - l)) -> 0 < wanted_low push frac tiny l up.
Proof.
  intros H. unfold wanted_low. pose proof (push_pos l). destruct up as [u|]; [|assumption]. specialize (H u eq_refl). apply Rmin_glb_lt; lra.
Qed.
Lemma wanted_upp_pos u lo : (forall l, lo = Some l -> tiny < frac * (u - l)) -> 0 < wanted_upp push frac tiny u lo.
Proof.
  intros H. unfold wanted_upp. pose proof (push_pos u). destruct lo as [l|]; [|lra]. specialize (H l eq_refl).
  assert (0 < Rmin (push * Rmax 1 (Rabs u)) (frac * (u - l) - tiny)) by (apply Rmin_glb_lt; lra). lra.
Qed.
Lemma wanted_sum l u : tiny < frac * (u - l) ->
  l + wanted_low push frac tiny l (Some u) <= u - wanted_upp push frac tiny u (Some l).
Proof.
  intros H. unfold wanted_low, wanted_upp.
  pose proof (Rmin_r (push * Rmax 1 (Rabs l)) (frac * (u - l) - tiny)). pose proof (Rmin_r (push * Rmax 1 (Rabs u)) (frac * (u - l) - tiny)).
  assert (u - l > 0) by nra. assert (2 * (frac * (u - l)) <= u - l) by nra. lra.
Qed.

Lemma push_R vs : push_variables O tiny push frac vs =
  apply_corr O (corr_low O tiny push frac) (corr_upp O tiny push frac) (apply_corr O (corr_low0 O) (corr_upp0 O) vs).
Proof. unfold push_variables. cbn. rewrite !Rlt_bool_true by lra. reflexivity. Qed.

Definition pushed (v : var (T:=R)) : R :=
  let x0 := v_x v + r0 (corr_low0 O v) - r0 (corr_upp0 O v) in
  let w := VAR x0 (v_lo v) (v_up v) in
  x0 + r0 (corr_low O tiny push frac w) - r0 (corr_upp O tiny push frac w).
Lemma push_map vs : push_variables O tiny push frac vs = map (fun v => VAR (pushed v) (v_lo v) (v_up v)) vs.
Proof. rewrite push_R, !apply_corr_R, map_map. reflexivity. Qed.

Lemma pushed_nearest v : room frac tiny v -> nearest (well_inside push frac tiny (v_lo v) (v_up v)) (v_x v) (pushed v).
Proof.
  destruct v as [x lo up]. unfold room, pushed, corr_low, corr_upp, corr_low0, corr_upp0; cbn -[p_low p_upp tmax]. intros H.
  destruct lo as [l|], up as [u|]; cbn -[p_low p_upp tmax]; rewrite ?tmax_R; cbn -[p_low p_upp].
  - specialize (H l u eq_refl eq_refl).
    rewrite p_low_R by (intros ? [= <-]; assumption). rewrite p_upp_R by (intros ? [= <-]; assumption).
    pose proof (wanted_sum l u H) as S.
    pose proof (wanted_low_pos l (Some u)) as PL. specialize (PL ltac:(intros ? [= <-]; assumption)).
    pose proof (wanted_upp_pos u (Some l)) as PU. specialize (PU ltac:(intros ? [= <-]; assumption)).
    set (a := l + wanted_low push frac tiny l (Some u)) in *. set (b := wanted_upp push frac tiny u (Some l)) in *.
    assert (A : l < a) by (unfold a; lra).
    assert (E : x + Rmax (l - x) 0 - Rmax (- u + x) 0 + Rmax (- (x + Rmax (l - x) 0 - Rmax (- u + x) 0) + a) 0
        - Rmax (x + Rmax (l - x) 0 - Rmax (- u + x) 0 + (- u + b)) 0 = Rmax a (Rmin x (u - b))).
    { clearbody a b. unfold Rmax, Rmin; repeat destruct Rle_dec; lra. }
    split.
    + rewrite E. split; intros ? [= <-]; fold a b; clearbody a b; unfold Rmax, Rmin; repeat destruct Rle_dec; lra.
    + intros z [Z1 Z2]. specialize (Z1 l eq_refl); specialize (Z2 u eq_refl). rewrite E.
      fold a in Z1. fold b in Z2. clearbody a b.
      unfold Rmax, Rmin, Rabs; repeat destruct Rle_dec; repeat destruct Rcase_abs; lra.
  - rewrite p_low_R by discriminate. pose proof (wanted_low_pos l None) as PL. specialize (PL ltac:(discriminate)).
    set (a := wanted_low push frac tiny l None) in *.
    assert (E : x + Rmax (l - x) 0 - 0 + Rmax (- (x + Rmax (l - x) 0 - 0) + (l + a)) 0 - 0 = Rmax (l + a) x)
      by (unfold Rmax; repeat destruct Rle_dec; lra).
    split.
    + split; [|discriminate]. intros ? [= <-]. rewrite E. fold a. apply Rmax_l.
    + intros z [Z1 _]. specialize (Z1 l eq_refl). fold a in Z1. rewrite E. unfold Rmax, Rabs; repeat destruct Rle_dec; repeat destruct Rcase_abs; lra.
  - rewrite p_upp_R by discriminate. pose proof (wanted_upp_pos u None) as PL. specialize (PL ltac:(discriminate)).
    set (a := wanted_upp push frac tiny u None) in *.
    assert (E : x + 0 - Rmax (- u + x) 0 + 0 - Rmax (x + 0 - Rmax (- u + x) 0 + (- u + a)) 0 = Rmin x (u - a))
      by (unfold Rmax, Rmin; repeat destruct Rle_dec; lra).
    split.
    + split; [discriminate|]. intros ? [= <-]. rewrite E. fold a. apply Rmin_r.
    + intros z [_ Z1]. specialize (Z1 u eq_refl). fold a in Z1. rewrite E. unfold Rmin, Rabs; repeat destruct Rle_dec; repeat destruct Rcase_abs; lra.
  - split; [split; discriminate|]. intros z _. replace (x + 0 - 0 + 0 - 0 - x) with 0 by ring. rewrite Rabs_R0. apply Rabs_pos.
Qed.
End Push.
End RR.
