(** Doubles: extrema over any partition, the fraction-to-the-boundary rule with
    rounding, and y + alpha*x. *)
From Coq Require Import List Bool Arith ZArith Reals Lia Lra.
From Flocq Require Import Core Relative BinarySingleNaN.
From Verif Require Import Num VecModel VecSpec VecProofs VecLift VecReal VecRed.
Import ListNotations.
Local Open Scope R_scope.

Section Doubles.
Variable lg : num -> num.
Notation ON := (num_ops lg).
Notation OR := (R_ops (fun x => x)).
Definition good (x : num) : Prop := nnan x = false.

(** ** Extrema: read a vector of doubles as a vector of reals *)
Definition dmap (d : dvec num) : dvec R := DV (init d) (hom d) (key (scal d)) (option_map (map key) (vals d)).
Fixpoint vmap (v : vec num) : vec R := match v with Dense n d => Dense n (dmap d) | Comp l => Comp (map vmap l) end.

Lemma dden_dmap n d : dden n (dmap d) = map key (dden n d).
Proof.
  unfold dden, dmap, vlist; simpl. destruct (hom d); [rewrite map_repeat; reflexivity|]. destruct (vals d); reflexivity.
Qed.
Lemma dok_dmap n d : dok n d -> dok n (dmap d).
Proof.
  intros (H1 & H2 & H3). unfold dmap. split; [exact H1|]. simpl. split.
  - intros H. destruct (H2 H) as (l & -> & Hl). exists (map key l). simpl. rewrite map_length. auto.
  - intros l. destruct (vals d) eqn:E; [|discriminate]. intros [= <-]. rewrite map_length. auto.
Qed.
Lemma contents_vmap v : contents (vmap v) = map key (contents v).
Proof.
  induction v as [n d|l IH] using vec_ind'; simpl; [apply dden_dmap|].
  induction IH; simpl; [reflexivity|]. rewrite map_app. congruence.
Qed.
Lemma vok_vmap s v : vok s v -> vok s (vmap v).
Proof.
  revert s; induction v as [n d|l IH] using vec_ind'; intros s H; inversion H as [? ? Hd|ls ? Hl]; subst; simpl.
  - constructor. apply dok_dmap; auto.
  - constructor. clear H. induction Hl; simpl; constructor; apply Forall_cons_iff in IH; destruct IH; auto.
Qed.
Lemma dim_vmap v : dim (vmap v) = dim v.
Proof.
  induction v as [n d|l IH] using vec_ind'; simpl; [reflexivity|]. rewrite map_map. f_equal.
  apply map_ext_in. rewrite Forall_forall in IH. exact IH.
Qed.

Lemma huge_key : key (thuge ON) = thuge OR /\ nnan (thuge ON) = false.
Proof.
  cbn [thuge num_ops R_ops]. split; [|reflexivity]. unfold dbl_max. cbn [key]. unfold B2R, F2R. cbn [Fnum Fexp cond_Zopp]. reflexivity.
Qed.
Opaque dbl_max.

Lemma fmax_key l : Forall good l -> forall m, good m ->
  good (fold_left (fun m y => tmax ON y m) l m) /\
  key (fold_left (fun m y => tmax ON y m) l m) = fold_left (fun m y => tmax OR y m) (map key l) (key m).
Proof.
  induction 1 as [|x l Hx Hl IH]; intros m Hm; simpl map; cbn [fold_left]; [auto|].
  assert (G : good (tmax ON x m)) by (apply nmax_nan; auto).
  destruct (IH _ G) as [I1 I2]. split; [exact I1|]. rewrite I2. f_equal. rewrite tmax_R. apply nmax_key; auto.
Qed.
Lemma fmin_key l : Forall good l -> forall m, good m ->
  good (fold_left (fun m y => tmin ON y m) l m) /\
  key (fold_left (fun m y => tmin ON y m) l m) = fold_left (fun m y => tmin OR y m) (map key l) (key m).
Proof.
  induction 1 as [|x l Hx Hl IH]; intros m Hm; simpl map; cbn [fold_left]; [auto|].
  assert (G : good (tmin ON x m)) by (apply nmin_nan; auto).
  destruct (IH _ G) as [I1 I2]. split; [exact I1|]. rewrite I2. f_equal. rewrite tmin_R. apply nmin_key; auto.
Qed.
Lemma amax_key l : Forall good l -> forall m, good m ->
  good (fold_left (fun m y => if nlt m (nabs y) then nabs y else m) l m) /\
  key (fold_left (fun m y => if nlt m (nabs y) then nabs y else m) l m) =
  fold_left (fun m y => if Rlt_bool m (Rabs y) then Rabs y else m) (map key l) (key m).
Proof.
  induction 1 as [|x l Hx Hl IH]; intros m Hm; simpl map; cbn [fold_left]; [auto|].
  change (if nlt m (nabs x) then nabs x else m) with (nmax m (nabs x)).
  assert (Ga : nnan (nabs x) = false) by (rewrite nnan_abs; exact Hx).
  assert (G : good (nmax m (nabs x))) by (apply nmax_nan; auto).
  destruct (IH _ G) as [I1 I2]. split; [exact I1|]. rewrite I2. f_equal. rewrite nmax_key by auto. rewrite key_abs.
  unfold Rmax, Rlt_bool. destruct (Rle_dec (key m) (Rabs (key x))), (Rcompare_spec (key m) (Rabs (key x))); lra.
Qed.

Lemma d_max_key n d : dok n d -> Forall good (dden n d) -> good (d_max ON n d) /\ key (d_max ON n d) = d_max OR n (dmap d).
Proof.
  intros H G. rewrite (d_max_of ON (num_laws lg)), (d_max_of OR (R_laws _)), dden_dmap by (auto using dok_dmap).
  destruct (dden n d) as [|x l]; unfold max_of; cbn [map fold_max].
  - destruct huge_key as [K1 K2]. split; [unfold good; cbn [topp num_ops]; rewrite nnan_opp; exact K2|].
    cbn [topp thuge num_ops R_ops] in *. rewrite key_opp, K1. reflexivity.
  - inversion G; subst. apply fmax_key; auto.
Qed.
Lemma d_min_key n d : dok n d -> Forall good (dden n d) -> good (d_min ON n d) /\ key (d_min ON n d) = d_min OR n (dmap d).
Proof.
  intros H G. rewrite (d_min_of ON (num_laws lg)), (d_min_of OR (R_laws _)), dden_dmap by (auto using dok_dmap).
  destruct (dden n d) as [|x l]; unfold min_of; cbn [map fold_min].
  - destruct huge_key as [K1 K2]. split; [exact K2|exact K1].
  - inversion G; subst. apply fmin_key; auto.
Qed.
Lemma d_amax_key n d : dok n d -> Forall good (dden n d) -> good (d_amax ON n d) /\ key (d_amax ON n d) = d_amax OR n (dmap d).
Proof.
  intros H G. rewrite (d_amax_of ON (num_laws lg)), (d_amax_of OR (R_laws _)), dden_dmap by (auto using dok_dmap).
  destruct (dden n d) as [|x l]; unfold amax_of; cbn [map blas_amax].
  - split; [reflexivity|exact key_nzero].
  - inversion G; subst. destruct (amax_key l H3 (nabs x)) as [K1 K2]; [unfold good; rewrite nnan_abs; auto|].
    split; [exact K1|]. cbn [num_ops R_ops tlt tabs]. rewrite K2, key_abs. reflexivity.
Qed.

Lemma v_amax_key s v : vok s v -> Forall good (contents v) -> good (v_amax ON v) /\ key (v_amax ON v) = v_amax OR (vmap v).
Proof.
  revert s; induction v as [n d|l IH] using vec_ind'; intros s H G; inversion H as [? ? Hd|ls ? Hl]; subst; cbn [v_amax vmap contents] in *.
  - apply d_amax_key; auto.
  - rewrite map_map. clear H. cbn [t0 num_ops R_ops].
    assert (K : forall m r, good m -> key m = r ->
      good (fold_left (tmax ON) (map (v_amax ON) l) m) /\
      key (fold_left (tmax ON) (map (v_amax ON) l) m) = fold_left (tmax OR) (map (fun x => v_amax OR (vmap x)) l) r).
    { induction Hl as [|s v ls l Hv Hl IHl]; intros m r Hm Er; cbn [map fold_left]; [auto|].
      apply Forall_cons_iff in IH. destruct IH as [Iv Il]. cbn [map concat] in G. apply Forall_app in G. destruct G as [G1 G2].
      destruct (Iv s Hv G1) as [A1 A2]. apply IHl; auto.
      - apply nmax_nan; auto.
      - rewrite tmax_R. etransitivity; [apply nmax_key; auto|]. rewrite A2, Er. reflexivity. }
    apply K; [reflexivity|apply key_nzero].
Qed.
Lemma v_max_key s v : vok s v -> Forall good (contents v) -> good (v_max ON v) /\ key (v_max ON v) = v_max OR (vmap v).
Proof.
  revert s; induction v as [n d|l IH] using vec_ind'; intros s H G; inversion H as [? ? Hd|ls ? Hl]; subst; cbn [v_max vmap contents] in *.
  - apply d_max_key; auto.
  - rewrite map_map. clear H.
    assert (K : forall m r, good m -> key m = r ->
      let f := fold_left (fun m p => if negb (fst p =? 0)%nat then tmax ON m (snd p) else m) (map (fun c => (dim c, v_max ON c)) l) m in
      good f /\ key f = fold_left (fun m p => if negb (fst p =? 0)%nat then tmax OR m (snd p) else m) (map (fun c => (dim (vmap c), v_max OR (vmap c))) l) r).
    { induction Hl as [|s v ls l Hv Hl IHl]; intros m r Hm Er; cbn [map fold_left]; [split; auto|].
      apply Forall_cons_iff in IH. destruct IH as [Iv Il]. cbn [map concat] in G. apply Forall_app in G. destruct G as [G1 G2].
      destruct (Iv s Hv G1) as [A1 A2]. cbn [fst snd]. rewrite dim_vmap. destruct (negb (dim v =? 0)%nat); [|apply IHl; auto].
      apply IHl; auto.
      - apply nmax_nan; auto.
      - rewrite tmax_R. etransitivity; [apply nmax_key; auto|]. rewrite A2, Er. reflexivity. }
    destruct huge_key as [K1 K2]. apply K; cbn [topp num_ops R_ops].
    + unfold good. rewrite nnan_opp. exact K2.
    + rewrite key_opp. exact (f_equal Ropp K1).
Qed.
Lemma v_min_key s v : vok s v -> Forall good (contents v) -> good (v_min ON v) /\ key (v_min ON v) = v_min OR (vmap v).
Proof.
  revert s; induction v as [n d|l IH] using vec_ind'; intros s H G; inversion H as [? ? Hd|ls ? Hl]; subst; cbn [v_min vmap contents] in *.
  - apply d_min_key; auto.
  - rewrite map_map. clear H.
    assert (K : forall m r, good m -> key m = r ->
      let f := fold_left (fun m p => if negb (fst p =? 0)%nat then tmin ON m (snd p) else m) (map (fun c => (dim c, v_min ON c)) l) m in
      good f /\ key f = fold_left (fun m p => if negb (fst p =? 0)%nat then tmin OR m (snd p) else m) (map (fun c => (dim (vmap c), v_min OR (vmap c))) l) r).
    { induction Hl as [|s v ls l Hv Hl IHl]; intros m r Hm Er; cbn [map fold_left]; [split; auto|].
      apply Forall_cons_iff in IH. destruct IH as [Iv Il]. cbn [map concat] in G. apply Forall_app in G. destruct G as [G1 G2].
      destruct (Iv s Hv G1) as [A1 A2]. cbn [fst snd]. rewrite dim_vmap. destruct (negb (dim v =? 0)%nat); [|apply IHl; auto].
      apply IHl; auto.
      - apply nmin_nan; auto.
      - rewrite tmin_R. etransitivity; [apply nmin_key; auto|]. rewrite A2, Er. reflexivity. }
    destruct huge_key as [K1 K2]. apply K; [exact K2|exact K1].
Qed.

(** ** Fraction to the boundary *)
Definition u : R := bpow radix2 (-53).
Definition eta : R := bpow radix2 (-1075).

Lemma fl_up r : 0 <= r -> fl r <= r * (1 + u) + eta.
Proof.
  intros Hr. assert (H : rnd r <= r * (1 + u) + eta).
  { destruct (error_N_FLT radix2 (-1074) 53 ltac:(lia) (fun x => negb (Z.even x)) r) as (e1 & e2 & H1 & H2 & _ & H3).
    unfold rnd, round_mode. change (SpecFloat.fexp 53 1024) with (FLT_exp (-1074) 53). rewrite H3.
    assert (B1 : / 2 * bpow radix2 (-53 + 1) = u).
    { unfold u. change (-53 + 1)%Z with (1 + -53)%Z. rewrite bpow_plus. change (bpow radix2 1) with 2. field. }
    assert (B2 : / 2 * bpow radix2 (-1074) = eta).
    { unfold eta. change (-1074)%Z with (1 + -1075)%Z. rewrite bpow_plus. change (bpow radix2 1) with 2. field. }
    match type of H1 with _ <= ?r => replace r with u in H1 end.
    match type of H2 with _ <= ?r => replace r with eta in H2 end. apply Rabs_le_inv in H1, H2. nra. }
  assert (0 < eta) by apply bpow_gt_0. assert (0 < u) by apply bpow_gt_0.
  unfold fl. pose proof big_pos. apply Rmax_lub; [nra|]. eapply Rle_trans; [apply Rmin_r|exact H].
Qed.

(** step bound of one component *)
Definition step_ok (tau x d a : R) : Prop :=
  x + a * d >= x - (tau * x * (1 + u) * (1 + u) + eta * (- d) * (1 + x * (1 + u))).

Lemma frac_num s tau d x : vok s d -> vok s x -> nfin tau = true -> 0 <= key tau ->
  Forall (fun x => nfin x = true /\ 0 <= key x) (contents x) -> Forall (fun d => nfin d = true) (contents d) ->
  let a := v_frac ON tau d x in
  nnan a = false /\ 0 <= key a <= 1 /\
  Forall2 (fun x d => key d < 0 -> nfin (ndiv (nopp tau) d) = true -> step_ok (key tau) (key x) (key d) (key a)) (contents x) (contents d).
Proof.
  intros Hd Hx Ft Ht Gx Gd a.
  destruct (v_frac_char ON (num_laws lg) _ (num_order lg) tau s x d Hd Hx) as (A1 & A2 & A3 & A4). fold a in A1, A2, A3, A4.
  pose proof (vok_length _ _ Hd) as Ld. pose proof (vok_length _ _ Hx) as Lx.
  assert (Le : key a <= 1).
  { apply nlt_false in A3; [|apply nfin_nnan, none_fin|exact A1]. cbn [t1 num_ops] in A3. rewrite key_none in A3. exact A3. }
  assert (Hneg : forall q : num, tlt ON q (t0 ON) = true -> nfin q = true -> key q < 0).
  { intros q Hq _. apply nlt_iff in Hq. cbn [t0 num_ops] in Hq. rewrite key_nzero in Hq. apply Hq. }
  assert (Hrat : forall q x, nfin q = true -> key q < 0 -> nfin x = true -> 0 <= key x ->
      nnan (ndiv (nopp tau) q) = false /\ 0 <= key (ndiv (nopp tau) q) /\ key (ndiv (nopp tau) q) = fl (key tau / - key q) /\
      (nfin (ndiv (nopp tau) q) = true -> nnan (nmul (ndiv (nopp tau) q) x) = false /\ key (nmul (ndiv (nopp tau) q) x) = fl (fl (key tau / - key q) * key x))).
  { intros q y Fq Kq Fy Ky.
    destruct (ndiv_fin (nopp tau) q) as [N1 N2]; [rewrite nfin_opp; exact Ft|exact Fq|lra|].
    rewrite key_opp in N2. replace (- key tau / key q) with (key tau / - key q) in N2 by (field; lra).
    assert (P : 0 <= key tau / - key q) by (apply Rmult_le_pos; [exact Ht|left; apply Rinv_0_lt_compat; lra]).
    repeat split; auto.
    - rewrite N2. apply fl_pos, P.
    - intros. destruct (nmul_fin _ y H Fy) as [M1 M2]. exact M1.
    - destruct (nmul_fin _ y H Fy) as [M1 M2]. rewrite N2 in M2. exact M2. }
  rewrite Forall_forall in Gx, Gd.
  split; [exact A1|]. split; [split; [|exact Le]|].
  - destruct A2 as [->|((q & y) & Hp & Hq & Ea)]; [cbn [t1 num_ops]; rewrite key_none; lra|].
    simpl in Hq. pose proof (in_combine_l _ _ _ _ Hp) as Hl. pose proof (in_combine_r _ _ _ _ Hp) as Hr.
    specialize (Gd _ Hl). destruct (Gx _ Hr) as [Gy Gy2]. specialize (Hneg q Hq Gd).
    destruct (Hrat q y Gd Hneg Gy Gy2) as (R1 & R2 & R3 & R4).
    unfold ratio in Ea. cbn [fst snd num_ops tmul tdiv topp] in Ea. 
    destruct (nfin (ndiv (nopp tau) q)) eqn:Ff.
    + destruct (R4 eq_refl) as [_ K]. rewrite Ea, K. apply fl_pos. apply Rmult_le_pos; [rewrite <- R3; exact R2|exact Gy2].
    + (* infinite quotient *)
      assert (Hinf : ndiv (nopp tau) q = ninf).
      { clear -R1 R2 Ff. destruct (ndiv (nopp tau) q) as [|[|]| |]; try discriminate; auto. simpl in R2. pose proof big_pos. lra. }
      rewrite Ea, Hinf in A1 |- *. rewrite Ea, Hinf in Le. clear -Gy Gy2 A1 Le.
      destruct y as [sy| | |sy m e He]; try discriminate Gy; try discriminate A1.
      destruct sy; [|simpl; pose proof big_pos; lra].
      exfalso. simpl in Gy2. unfold F2R in Gy2. simpl in Gy2. pose proof (bpow_gt_0 radix2 e).
      assert (IZR (Z.neg m) < 0) by (apply IZR_lt; lia). nra.
  - assert (Hall : forall p, In p (combine (contents d) (contents x)) -> key (fst p) < 0 -> nfin (ndiv (nopp tau) (fst p)) = true ->
        step_ok (key tau) (key (snd p)) (key (fst p)) (key a)).
    { intros [q y] Hp Kq Ff. cbn [fst snd] in *.
      pose proof (in_combine_l _ _ _ _ Hp) as Hl. pose proof (in_combine_r _ _ _ _ Hp) as Hr.
      specialize (Gd _ Hl). destruct (Gx _ Hr) as [Gy Gy2].
      destruct (Hrat q y Gd Kq Gy Gy2) as (R1 & R2 & R3 & R4). destruct (R4 Ff) as [M1 M2].
      assert (Hlt : tlt ON (fst (q, y)) (t0 ON) = true).
      { cbn [fst num_ops tlt t0]. apply nlt_iff. rewrite key_nzero. repeat split; auto; apply nfin_nnan; auto. }
      specialize (A4 _ Hp Hlt). unfold ratio in A4. cbn [fst snd num_ops tmul tdiv topp tlt] in A4.
      apply nlt_false in A4; auto. rewrite M2 in A4.
      assert (P : 0 <= key tau / - key q) by (apply Rmult_le_pos; [exact Ht|left; apply Rinv_0_lt_compat; lra]).
      pose proof (fl_up _ P) as U1. assert (U0 : 0 <= fl (key tau / - key q)) by (apply fl_pos; exact P).
      assert (Q : 0 <= fl (key tau / - key q) * key y) by (apply Rmult_le_pos; auto).
      pose proof (fl_up _ Q) as U2.
      assert (Hu : 0 < u) by apply bpow_gt_0. assert (He : 0 < eta) by apply bpow_gt_0.
      unfold step_ok.
      assert (B : key a <= (key tau / - key q * (1 + u) + eta) * key y * (1 + u) + eta).
      { eapply Rle_trans; [exact A4|]. eapply Rle_trans; [exact U2|]. apply Rplus_le_compat_r. apply Rmult_le_compat_r; [lra|].
        apply Rmult_le_compat_r; lra. }
      assert (B2 : key a * - key q <= ((key tau / - key q * (1 + u) + eta) * key y * (1 + u) + eta) * - key q) by (apply Rmult_le_compat_r; lra).
      replace (((key tau / - key q * (1 + u) + eta) * key y * (1 + u) + eta) * - key q)
        with (key tau * key y * (1 + u) * (1 + u) + eta * - key q * (1 + key y * (1 + u))) in B2 by (field; lra).
      lra. }
    clear -Hall Ld Lx. rewrite <- Lx in Ld. clear Lx. revert Ld Hall. generalize (contents d), (contents x).
    induction l as [|q l IH]; intros [|y l0] Ln Hall; try discriminate Ln; constructor.
    + intros. apply (Hall (q, y)); auto. left; reflexivity.
    + apply IH; [simpl in Ln; lia|]. intros p Hp. apply Hall. right; exact Hp.
Qed.

(** ** y + alpha*x: the same value, up to the sign of zero *)
Definition same (p q : num) : Prop := p = q \/ neqb p q = true.

Lemma nadd_zero y z : nfin z = true -> key z = 0 -> same (nadd y z) y.
Proof.
  intros Fz Kz. destruct (nfin y) eqn:Fy.
  - right. destruct (nadd_fin y z Fy Fz) as [N K]. apply neqb_iff. rewrite K, Kz, Rplus_0_r, fl_key by (apply nfin_nnan; auto).
    repeat split; auto. apply nfin_nnan; auto.
  - left. destruct z as [sz| | |sz m e He]; try discriminate Fz.
    + destruct y as [|s| |]; try discriminate Fy; destruct sz; reflexivity.
    + exfalso. simpl in Kz. unfold F2R in Kz. simpl in Kz. pose proof (bpow_gt_0 radix2 e).
      assert (IZR (cond_Zopp sz (Z.pos m)) <> 0) by (apply (IZR_neq _ 0); destruct sz; simpl; lia). apply H0. nra.
Qed.
Lemma nmul_zero a x : nfin a = true -> nfin x = true -> key a = 0 \/ key x = 0 -> nfin (nmul a x) = true /\ key (nmul a x) = 0.
Proof.
  intros Fa Fx H. destruct (nmul_fin a x Fa Fx) as [N K].
  assert (E : key a * key x = 0) by (destruct H as [-> | ->]; ring). rewrite E, fl_0 in K.
  split; [|exact K]. apply key_strict_finite; auto. rewrite K. pose proof big_pos. lra.
Qed.

Lemma axpy_num n a x v : nfin a = true -> Forall (fun x => nfin x = true) (dden n x) -> dok n x -> dok n v ->
  dok n (d_axpy ON n a x v) /\
  Forall2 same (dden n (d_axpy ON n a x v)) (map2 (fun y x => nadd y (nmul a x)) (dden n v) (dden n x)).
Proof.
  intros Fa Fx Hx Hv. destruct (dok_rep ON _ _ Hx) as [ex Ex]. destruct (dok_rep ON _ _ Hv) as [ev Ev].
  assert (Hex : dden n x = map ex (seq 0 n)) by apply Ex. assert (Hev : dden n v = map ev (seq 0 n)) by apply Ev.
  rewrite Hex, Hev, map2_map. rewrite Hex, Forall_map, Forall_forall in Fx.
  assert (Main : exists e, drep n e (d_axpy ON n a x v) /\ forall i, In i (seq 0 n) -> same (e i) (nadd (ev i) (nmul a (ex i)))).
  { assert (Zsym : forall y z, nfin z = true -> key z = 0 -> same y (nadd y z)).
    { intros y z H1 H2. destruct (nadd_zero y z H1 H2) as [E|E]; [left; auto|right]. apply neqb_iff in E. apply neqb_iff. intuition. }
    unfold d_axpy. destruct n as [|n]; cbn [Nat.eqb]; [exists ev; split; [exact Ev|intros i []]|].
    apply drep_cases in Ex; destruct Ex as [(p & po & -> & Hpo & Ex) | (p & ->)]; [pose proof (const_in _ _ _ Ex) as Cx|];
    apply drep_cases in Ev; destruct Ev as [(q & qo & -> & Hqo & Ev) | (q & ->)]; try pose proof (const_in _ _ _ Ev) as Cv;
    unfold vlist, blas_axpy; cbn [hom scal vals]; cbn [num_ops tadd tmul teq t0]; lists.
    - exists (fun _ => nadd q (nmul a p)). split; [apply drep_hom; auto|]. intros i Hi. rewrite (Cv _ Hi), (Cx _ Hi). left; reflexivity.
    - destruct (neqb p nzero) eqn:Ep; cbn [negb]; cbv iota.
      + exists ev. split; [apply drep_arr; auto|]. intros i Hi. apply neqb_iff in Ep. rewrite key_nzero in Ep.
        assert (Fp : nfin p = true) by (rewrite <- (Cx _ Hi); auto). rewrite (Cx _ Hi).
        destruct (nmul_zero a p Fa Fp) as [M1 M2]; [tauto|]. apply Zsym; auto.
      + destruct (neqb a nzero) eqn:Ea; cbv iota.
        * exists ev. split; [apply drep_arr; auto|]. intros i Hi. apply neqb_iff in Ea. rewrite key_nzero in Ea.
          destruct (nmul_zero a (ex i) Fa (Fx _ Hi)) as [M1 M2]; [tauto|]. apply Zsym; auto.
        * eexists. split; [apply drep_arr; intros; reflexivity|]. intros i Hi. cbv beta. rewrite (Cx _ Hi). left; reflexivity.
    - eexists. split; [apply drep_arr; intros; reflexivity|]. intros i Hi. cbv beta. rewrite (Cv _ Hi). left; reflexivity.
    - destruct (neqb a nzero) eqn:Ea; cbv iota.
      + exists ev. split; [apply drep_arr; auto|]. intros i Hi. apply neqb_iff in Ea. rewrite key_nzero in Ea.
        destruct (nmul_zero a (ex i) Fa (Fx _ Hi)) as [M1 M2]; [tauto|]. apply Zsym; auto.
      + eexists. split; [apply drep_arr; intros; reflexivity|]. intros i Hi. left; reflexivity. }
  destruct Main as (e & [D1 D2] & Hs). split; [exact D1|]. rewrite D2. clear -Hs. induction (seq 0 n); simpl; constructor; auto using in_eq.
  apply IHl. intros. apply Hs. right; auto.
Qed.
End Doubles.
