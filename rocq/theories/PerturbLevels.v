(** Strict growth of the perturbation in binary64 arithmetic. *)
From Coq Require Import List Bool ZArith Reals Lra Lia.
From Flocq Require Import Core BinarySingleNaN.
From Verif Require Import Num PerturbModel PerturbSpec PerturbProofs.
Import ListNotations.
Open Scope R_scope.

Local Instance vexp' : Valid_exp (SpecFloat.fexp 53 1024) := FLT_exp_valid (SpecFloat.emin 53 1024) 53.

Notation fexp := (SpecFloat.fexp 53 1024).

Lemma fmt_key x : nfin x = true -> generic_format radix2 fexp (key x).
Proof. intros F. rewrite key_finite by exact F. apply generic_format_B2R. Qed.

Lemma fl_lt_big r m : 0 <= r -> fl r <= m -> m < big -> fl r = rnd r.
Proof.
  intros R0 L M. unfold fl in *.
  assert (0 <= rnd r) by (rewrite <- rnd_0; apply rnd_le; auto).
  pose proof big_pos.
  rewrite (Rmax_right (- big)) in * by (apply Rmin_case; lra).
  destruct (Rle_dec big (rnd r)) as [G|G].
  - rewrite Rmin_left in * by auto. lra.
  - rewrite Rmin_right by lra. reflexivity.
Qed.

Lemma one_lt a : nfin a = true -> 1 < key a -> 1 + bpow radix2 (-52) <= key a.
Proof.
  intros F L.
  assert (G1 : generic_format radix2 fexp 1).
  { change 1 with (bpow radix2 0). apply generic_format_bpow. unfold SpecFloat.fexp, SpecFloat.emin; lia. }
  pose proof (succ_le_lt radix2 fexp 1 (key a) G1 (fmt_key a F) L) as S0.
  rewrite succ_eq_pos in S0 by lra.
  change 1 with (bpow radix2 0) in S0 at 2. rewrite ulp_bpow in S0.
  replace (fexp (0 + 1)) with (-52)%Z in S0 by reflexivity. exact S0.
Qed.

Lemma grow a x m : nfin a = true -> 1 < key a -> nfin x = true -> bpow radix2 (-1022) <= key x ->
  key (nmul a x) <= m -> m < big -> key x + bpow radix2 (-1074) <= key (nmul a x).
Proof.
  intros Fa La Fx Lx Lm Lb.
  destruct (nmul_fin a x Fa Fx) as [_ K]. rewrite K in *.
  pose proof (bpow_gt_0 radix2 (-1022)) as P0.
  assert (0 <= key a * key x) by nra.
  rewrite (fl_lt_big _ m) by auto.
  pose proof (one_lt a Fa La) as A.
  assert (U : ulp radix2 fexp (key x) <= key x * bpow radix2 (-52)).
  { pose proof (ulp_FLT_le radix2 (-1074) 53 (key x)) as U.
    rewrite Rabs_pos_eq in U by lra. apply U. exact Lx. }
  assert (S0 : succ radix2 fexp (key x) <= key a * key x).
  { rewrite succ_eq_pos by lra. pose proof (bpow_gt_0 radix2 (-52)). nra. }
  assert (S1 : generic_format radix2 fexp (succ radix2 fexp (key x))) by (apply generic_format_succ; auto with typeclass_instances; apply fmt_key; auto).
  apply rnd_le in S0.
  assert (S2 : rnd (succ radix2 fexp (key x)) = succ radix2 fexp (key x)).
  { unfold rnd. apply round_generic; auto with typeclass_instances. }
  rewrite S2 in S0. rewrite succ_eq_pos in S0 by lra.
  assert (U2 : bpow radix2 (-1074) <= ulp radix2 fexp (key x)).
  { rewrite ulp_neq_0 by lra. apply bpow_le. unfold cexp, SpecFloat.fexp, SpecFloat.emin. lia. }
  lra.
Qed.

Lemma grow2 a x m : nfin a = true -> 2 <= key a -> nfin x = true -> bpow radix2 (-1022) <= key x ->
  key (nmul a x) <= m -> m < big -> 2 * key x <= key (nmul a x).
Proof.
  intros Fa La Fx Lx Lm Lb.
  destruct (nmul_fin a x Fa Fx) as [_ K]. rewrite K in *.
  pose proof (bpow_gt_0 radix2 (-1022)) as P0.
  assert (0 <= key a * key x) by nra.
  rewrite (fl_lt_big _ m) by auto.
  assert (G : generic_format radix2 fexp (2 * key x)).
  { apply (generic_format_FLT radix2 (-1074) 53).
    destruct (FLT_format_generic radix2 (-1074) 53 _ (fmt_key x Fx)) as [[m' e'] E1 E2 E3].
    exists (Float radix2 m' (e' + 1)).
    - rewrite E1. unfold F2R. cbn [Fnum Fexp]. rewrite bpow_plus. change (bpow radix2 1) with 2. ring.
    - exact E2.
    - cbn [Fexp] in *. lia. }
  assert (S0 : 2 * key x <= key a * key x) by nra.
  apply rnd_le in S0. replace (rnd (2 * key x)) with (2 * key x) in S0; auto.
  symmetry. unfold rnd. apply round_generic; auto with typeclass_instances.
Qed.

Section Lev.
Variable o : popts.
Hypothesis V : valid_opts o.
Hypothesis Nm : normal_opts o.

Lemma max_big : key (o_max o) < big.
Proof.
  destruct (vo_max _ V) as [F _]. pose proof (key_finite_lt _ F) as H. apply Rabs_def2 in H. lra.
Qed.

Lemma next_cases h : ok0 (x_last h) -> nfin (x_curr h) = true -> 0 <= key (x_curr h) ->
  (key (x_curr h) = 0 /\ bpow radix2 (-1022) <= key (next_x o h)) \/
  (key (x_curr h) <> 0 /\ exists a, (a = o_first o \/ a = o_inc o) /\ next_x o h = nmul a (x_curr h)).
Proof.
  intros A F K. unfold next_x.
  destruct (neqb (x_curr h) nzero) eqn:E.
  - left. apply neqb_iff in E. rewrite key_nzero in E. split; [tauto|].
    destruct Nm as [N1 N2]. destruct (neqb (x_last h) nzero); auto.
    destruct (vo_min _ V), (vo_dec _ V).
    assert (O : ok0 (nmul (x_last h) (o_dec o))) by (apply ok_mul_r; auto; tauto).
    rewrite nmax_key; [|apply nfin_nnan; auto|apply O].
    eapply Rle_trans; [exact N1|apply Rmax_l].
  - right. apply neqb_false in E; auto using nfin_nnan. rewrite key_nzero in E. split; auto.
    destruct (_ || _); eauto.
Qed.

Lemma next_le_max h : ngt (next_x o h) (o_max o) = false -> ok0 (next_x o h) -> key (next_x o h) <= key (o_max o).
Proof. intros G O. eapply ok_le_max; eauto. apply (vo_max _ V). Qed.

(** all options: count multiples of 2^-1074 *)
Definition lev1 (x : num) : Z := Zfloor (key x * bpow radix2 1074).
Definition B1 : Z := 2 ^ 2098.

Lemma lev1_range x : nfin x = true -> 0 <= key x <= key (o_max o) -> (0 <= lev1 x <= B1)%Z.
Proof.
  intros F [K1 K2]. pose proof max_big. pose proof (bpow_gt_0 radix2 1074). unfold lev1. split.
  - apply Zfloor_lub. simpl. nra.
  - apply le_IZR. eapply Rle_trans; [apply Zfloor_lb|].
    unfold B1. replace (IZR (2 ^ 2098)) with (big * bpow radix2 1074).
    + apply Rmult_le_compat_r; lra.
    + unfold big. rewrite <- bpow_plus. change (1024 + 1074)%Z with 2098%Z.
      rewrite <- IZR_Zpower by lia. reflexivity.
Qed.

Lemma lev1_inc h : ok0 (x_last h) -> nfin (x_curr h) = true ->
  0 <= key (x_curr h) <= key (o_max o) ->
  (key (x_curr h) <> 0 -> bpow radix2 (-1022) <= key (x_curr h)) ->
  ngt (next_x o h) (o_max o) = false ->
  (lev1 (x_curr h) < lev1 (next_x o h))%Z /\ bpow radix2 (-1022) <= key (next_x o h).
Proof.
  intros A F [K1 K2] N G.
  assert (O : ok0 (next_x o h)) by (apply next_ok; auto; split; auto using nfin_nnan).
  pose proof (next_le_max _ G O) as L. pose proof max_big as MB.
  assert (Q : key (x_curr h) + bpow radix2 (-1074) <= key (next_x o h) /\ bpow radix2 (-1022) <= key (next_x o h)).
  { assert (bpow radix2 (-1074) <= bpow radix2 (-1022)) by (apply bpow_le; lia).
    destruct (next_cases h A F K1) as [[E X]|(E & a & Ha & X)]; [lra|].
    specialize (N E). rewrite X in *.
    assert (Fa : nfin a = true /\ 1 < key a).
    { destruct Ha as [-> | ->]; [destruct (vo_first _ V)|destruct (vo_inc _ V)]; split; auto. }
    destruct Fa as [Fa La].
    pose proof (grow a (x_curr h) (key (o_max o)) Fa La F N L MB).
    pose proof (bpow_gt_0 radix2 (-1074)). lra. }
  destruct Q as [Q1 Q2]. split; auto. unfold lev1.
  assert (Z0 : key (x_curr h) * bpow radix2 1074 + 1 <= key (next_x o h) * bpow radix2 1074).
  { pose proof (bpow_gt_0 radix2 1074).
    assert (E : bpow radix2 (-1074) * bpow radix2 1074 = 1) by (rewrite <- bpow_plus; reflexivity). nra. }
  assert (Zfloor (key (x_curr h) * bpow radix2 1074) + 1 <= Zfloor (key (next_x o h) * bpow radix2 1074))%Z; [|lia].
  apply Zfloor_lub. rewrite plus_IZR.
  pose proof (Zfloor_lb (key (x_curr h) * bpow radix2 1074)). lra.
Qed.

(** doubling options: count binary orders of magnitude *)
Hypothesis Dbl : doubling_opts o.
Definition lev2 (x : num) : Z :=
  if Rlt_bool 0 (key x) then Z.max 0 (mag radix2 (key x) + 1022) else 0%Z.

Lemma lev2_range x : nfin x = true -> 0 <= key x <= key (o_max o) -> (0 <= lev2 x <= 2046)%Z.
Proof.
  intros F K. unfold lev2. destruct (Rlt_bool_spec 0 (key x)); [|lia].
  pose proof max_big.
  assert (mag radix2 (key x) <= 1024)%Z; [|lia].
  apply mag_le_bpow; [lra|]. rewrite Rabs_pos_eq by lra. fold big. lra.
Qed.

Lemma lev2_inc h : ok0 (x_last h) -> nfin (x_curr h) = true ->
  0 <= key (x_curr h) <= key (o_max o) ->
  (key (x_curr h) <> 0 -> bpow radix2 (-1022) <= key (x_curr h)) ->
  ngt (next_x o h) (o_max o) = false ->
  (lev2 (x_curr h) < lev2 (next_x o h))%Z /\ bpow radix2 (-1022) <= key (next_x o h).
Proof.
  intros A F [K1 K2] N G.
  destruct (lev1_inc h A F (conj K1 K2) N G) as [_ Q2]. split; auto.
  assert (O : ok0 (next_x o h)) by (apply next_ok; auto; split; auto using nfin_nnan).
  pose proof (next_le_max _ G O) as L. pose proof max_big as MB.
  pose proof (bpow_gt_0 radix2 (-1022)) as P0.
  assert (M1 : (-1021 <= mag radix2 (key (next_x o h)))%Z).
  { apply mag_ge_bpow. rewrite Rabs_pos_eq by lra. exact Q2. }
  unfold lev2. rewrite (Rlt_bool_true 0 (key (next_x o h))) by lra.
  destruct (Rlt_bool_spec 0 (key (x_curr h))) as [P|P]; [|lia].
  assert (E : key (x_curr h) <> 0) by lra. specialize (N E).
  destruct (next_cases h A F K1) as [[X _]|(_ & a & Ha & X)]; [lra|]. rewrite X in *.
  assert (Fa : nfin a = true /\ 2 <= key a).
  { destruct Dbl. destruct Ha as [-> | ->]; [destruct (vo_first _ V)|destruct (vo_inc _ V)]; split; auto. }
  destruct Fa as [Fa La].
  pose proof (grow2 a (x_curr h) (key (o_max o)) Fa La F N L MB) as Gr.
  assert (M2 : (mag radix2 (key (x_curr h)) + 1 <= mag radix2 (key (nmul a (x_curr h))))%Z).
  { rewrite <- mag_mult_bpow by lra. apply mag_le; [|change (bpow radix2 1) with 2; lra].
    change (bpow radix2 1) with 2; lra. }
  lia.
Qed.
End Lev.
