(** * Num: the C++ type [Number] (double) as IEEE-754 binary64.

    Models [/repo/src/Common/IpTypes.h] lines 27-66 ([ipnumber] is [double] in the default
    configuration) and [/repo/src/Common/IpUtils.hpp] lines 24-90 ([Max], [Min]).

    The carrier and its operations are those of Flocq's [BinarySingleNaN] (one NaN, payloads
    and NaN signs not modelled), rounding to nearest even: the default C/C++ environment.
    x87 extended precision and -ffast-math are not modelled.

    The second half gives the proof interface: [key] maps every non-NaN number to a real
    (infinities to +-2^1024) such that the C++ comparisons are the comparisons of keys, and the
    arithmetic operations on finite numbers are "exact, then [fl]". *)

From Coq Require Import ZArith Reals Lra Lia Bool Psatz.
From Flocq Require Import Core BinarySingleNaN.

Set Implicit Arguments.

Definition num : Set := binary_float 53 1024.

Global Instance prec53 : Prec_gt_0 53.
Proof. reflexivity. Defined.
Global Instance prec53_lt : Prec_lt_emax 53 1024.
Proof. reflexivity. Defined.

(** ** Operations *)

Definition nadd (x y : num) : num := Bplus mode_NE x y.
Definition nsub (x y : num) : num := Bminus mode_NE x y.
Definition nmul (x y : num) : num := Bmult mode_NE x y.
Definition ndiv (x y : num) : num := Bdiv mode_NE x y.
Definition nsqrt (x : num) : num := Bsqrt mode_NE x.
Definition nopp (x : num) : num := Bopp x.
Definition nabs (x : num) : num := Babs x.

(** C++ [x <= y], [x < y], [x == y]: false whenever an operand is NaN. *)
Definition nle (x y : num) : bool := Bleb x y.
Definition nlt (x y : num) : bool := Bltb x y.
Definition neqb (x y : num) : bool := Beqb x y.
(** C++ [x >= y] and [x > y]. *)
Definition nge (x y : num) : bool := nle y x.
Definition ngt (x y : num) : bool := nlt y x.

Definition nnan (x : num) : bool := is_nan x.
(** [IsFiniteNumber], IpUtils.cpp lines 96-108 (with IPOPT_C_FINITE defined). *)
Definition nfin (x : num) : bool := is_finite x.

(** [std::max(a,b)] is [(a < b) ? b : a]; [std::min(a,b)] is [(b < a) ? b : a].
    IpUtils.hpp [Max]/[Min] with 2, 3 and 4 arguments. *)
Definition nmax (a b : num) : num := if nlt a b then b else a.
Definition nmin (a b : num) : num := if nlt b a then b else a.
Definition nmax3 (a b c : num) : num := nmax (nmax a b) c.
Definition nmin3 (a b c : num) : num := nmin (nmin a b) c.
Definition nmax4 (a b c d : num) : num := nmax (nmax a b) (nmax c d).
Definition nmin4 (a b c d : num) : num := nmin (nmin a b) (nmin c d).

(** Literals. *)
Definition nzero : num := B754_zero false.
Definition ninf : num := B754_infinity false.
Definition nninf : num := B754_infinity true.
Definition NaN : num := B754_nan.
(** The double nearest to the integer [z] (exact for |z| <= 2^53). *)
Definition nofZ (z : Z) : num := binary_normalize 53 1024 prec53 prec53_lt mode_NE z 0 false.
(** The double nearest to [p/q] when [p] and [q] are exactly representable. *)
Definition nrat (p q : Z) : num := ndiv (nofZ p) (nofZ q).
Definition none : num := nofZ 1.

Arguments nadd : simpl never.
Arguments nsub : simpl never.
Arguments nmul : simpl never.
Arguments ndiv : simpl never.
Arguments nsqrt : simpl never.
Arguments nle : simpl never.
Arguments nlt : simpl never.
Arguments neqb : simpl never.
Arguments nofZ : simpl never.
Arguments nrat : simpl never.
Arguments none : simpl never.

(** ** Proof interface *)

Local Open Scope R_scope.

Definition big : R := bpow radix2 1024.

Definition key (x : num) : R :=
  match x with
  | B754_infinity true => - big
  | B754_infinity false => big
  | _ => B2R x
  end.

(** Rounding to nearest even in binary64 without and with overflow to infinity. *)
Definition rnd (r : R) : R := round radix2 (SpecFloat.fexp 53 1024) (round_mode mode_NE) r.
Definition fl (r : R) : R := Rmax (- big) (Rmin big (rnd r)).

Lemma big_pos : 0 < big.
Proof. apply bpow_gt_0. Qed.

Lemma key_finite x : nfin x = true -> key x = B2R x.
Proof. destruct x as [s|[|]| |s m e H]; simpl; congruence. Qed.

Lemma nfin_nnan x : nfin x = true -> nnan x = false.
Proof. destruct x as [s|s| |s m e H]; simpl; congruence. Qed.

Lemma key_finite_lt x : nfin x = true -> Rabs (key x) < big.
Proof. intros H; rewrite key_finite by exact H; apply abs_B2R_lt_emax. Qed.

Lemma key_bound x : - big <= key x <= big.
Proof.
  pose proof big_pos.
  destruct (nfin x) eqn:F.
  - apply key_finite_lt in F. apply Rabs_def2 in F. lra.
  - destruct x as [s|[|]| |s m e H1]; simpl in *; try discriminate; lra.
Qed.

Lemma key_strict_finite x : nnan x = false -> - big < key x < big -> nfin x = true.
Proof.
  destruct x as [s|[|]| |s m e H]; simpl; intros; try reflexivity; try discriminate; lra.
Qed.

(** Comparisons are comparisons of keys. *)
Lemma cmp_spec x y : nnan x = false -> nnan y = false ->
  Bcompare x y = Some (Rcompare (key x) (key y)).
Proof.
  intros Nx Ny.
  destruct (nfin x) eqn:Fx; destruct (nfin y) eqn:Fy.
  - rewrite !key_finite by assumption. apply Bcompare_correct; assumption.
  - pose proof (key_finite_lt _ Fx) as Hx. apply Rabs_def2 in Hx.
    destruct y as [s|[|]| |s m e H]; simpl in Fy, Ny; try discriminate.
    + simpl (key (B754_infinity true)). rewrite Rcompare_Gt by lra.
      destruct x as [s|[|]| |[|] m e H]; simpl in *; try discriminate; reflexivity.
    + simpl (key (B754_infinity false)). rewrite Rcompare_Lt by lra.
      destruct x as [s|[|]| |[|] m e H]; simpl in *; try discriminate; reflexivity.
  - pose proof (key_finite_lt _ Fy) as Hy. apply Rabs_def2 in Hy.
    destruct x as [s|[|]| |s m e H]; simpl in Fx, Nx; try discriminate.
    + simpl (key (B754_infinity true)). rewrite Rcompare_Lt by lra.
      destruct y as [s|[|]| |[|] m e H]; simpl in *; try discriminate; reflexivity.
    + simpl (key (B754_infinity false)). rewrite Rcompare_Gt by lra.
      destruct y as [s|[|]| |[|] m e H]; simpl in *; try discriminate; reflexivity.
  - pose proof big_pos.
    destruct x as [s|[|]| |s m e H1]; destruct y as [s'|[|]| |s' m' e' H']; simpl in *; try discriminate;
    unfold Bcompare; simpl.
    + now rewrite Rcompare_Eq.
    + rewrite Rcompare_Lt; [reflexivity|lra].
    + rewrite Rcompare_Gt; [reflexivity|lra].
    + now rewrite Rcompare_Eq.
Qed.

Lemma SFcompare_nan_l x y : nnan x = true -> Bcompare x y = None.
Proof. destruct x; simpl; try discriminate. intros _; destruct y as [|[|]| |[|]]; reflexivity. Qed.
Lemma SFcompare_nan_r x y : nnan y = true -> Bcompare x y = None.
Proof. destruct y; simpl; try discriminate. intros _; destruct x as [|[|]| |[|]]; reflexivity. Qed.

Lemma nle_iff x y : nle x y = true <-> nnan x = false /\ nnan y = false /\ key x <= key y.
Proof.
  unfold nle, Bleb, SpecFloat.SFleb. fold (Bcompare x y).
  destruct (nnan x) eqn:Nx; [rewrite SFcompare_nan_l by exact Nx; split; [discriminate|intros [H _]; discriminate]|].
  destruct (nnan y) eqn:Ny; [rewrite SFcompare_nan_r by exact Ny; split; [discriminate|intros (_ & H & _); discriminate]|].
  rewrite cmp_spec by assumption.
  destruct (Rcompare_spec (key x) (key y)); split; intros; repeat split; try lra; try reflexivity; try discriminate.
Qed.

Lemma nlt_iff x y : nlt x y = true <-> nnan x = false /\ nnan y = false /\ key x < key y.
Proof.
  unfold nlt, Bltb, SpecFloat.SFltb. fold (Bcompare x y).
  destruct (nnan x) eqn:Nx; [rewrite SFcompare_nan_l by exact Nx; split; [discriminate|intros [H _]; discriminate]|].
  destruct (nnan y) eqn:Ny; [rewrite SFcompare_nan_r by exact Ny; split; [discriminate|intros (_ & H & _); discriminate]|].
  rewrite cmp_spec by assumption.
  destruct (Rcompare_spec (key x) (key y)); split; intros; repeat split; try lra; try reflexivity; try discriminate.
Qed.

Lemma neqb_iff x y : neqb x y = true <-> nnan x = false /\ nnan y = false /\ key x = key y.
Proof.
  unfold neqb, Beqb, SpecFloat.SFeqb. fold (Bcompare x y).
  destruct (nnan x) eqn:Nx; [rewrite SFcompare_nan_l by exact Nx; split; [discriminate|intros [H _]; discriminate]|].
  destruct (nnan y) eqn:Ny; [rewrite SFcompare_nan_r by exact Ny; split; [discriminate|intros (_ & H & _); discriminate]|].
  rewrite cmp_spec by assumption.
  destruct (Rcompare_spec (key x) (key y)); split; intros; repeat split; try lra; try reflexivity; try discriminate.
Qed.

Lemma nle_false x y : nnan x = false -> nnan y = false -> nle x y = false -> key y < key x.
Proof.
  intros Nx Ny H. apply Rnot_le_lt. intro L.
  assert (nle x y = true) by (apply nle_iff; auto). congruence.
Qed.
Lemma nlt_false x y : nnan x = false -> nnan y = false -> nlt x y = false -> key y <= key x.
Proof.
  intros Nx Ny H. apply Rnot_lt_le. intro L.
  assert (nlt x y = true) by (apply nlt_iff; auto). congruence.
Qed.
Lemma neqb_false x y : nnan x = false -> nnan y = false -> neqb x y = false -> key x <> key y.
Proof.
  intros Nx Ny H L.
  assert (neqb x y = true) by (apply neqb_iff; auto). congruence.
Qed.

Lemma nmax_nan a b : nnan a = false -> nnan b = false -> nnan (nmax a b) = false.
Proof. unfold nmax; destruct (nlt a b); auto. Qed.
Lemma nmin_nan a b : nnan a = false -> nnan b = false -> nnan (nmin a b) = false.
Proof. unfold nmin; destruct (nlt b a); auto. Qed.
Lemma nmax_key a b : nnan a = false -> nnan b = false -> key (nmax a b) = Rmax (key a) (key b).
Proof.
  intros Na Nb. unfold nmax. destruct (nlt a b) eqn:E.
  - apply nlt_iff in E. rewrite Rmax_right; [reflexivity|lra].
  - apply nlt_false in E; auto. rewrite Rmax_left; [reflexivity|lra].
Qed.
Lemma nmin_key a b : nnan a = false -> nnan b = false -> key (nmin a b) = Rmin (key a) (key b).
Proof.
  intros Na Nb. unfold nmin. destruct (nlt b a) eqn:E.
  - apply nlt_iff in E. rewrite Rmin_right; [reflexivity|lra].
  - apply nlt_false in E; auto. rewrite Rmin_left; [reflexivity|lra].
Qed.

(** ** Rounding *)

Local Instance vexp : Valid_exp (SpecFloat.fexp 53 1024) := FLT_exp_valid (SpecFloat.emin 53 1024) 53.

Lemma rnd_le a b : a <= b -> rnd a <= rnd b.
Proof. intros; unfold rnd; apply round_le; auto with typeclass_instances. Qed.
Lemma rnd_0 : rnd 0 = 0.
Proof. unfold rnd; apply round_0; auto with typeclass_instances. Qed.
Lemma rnd_key x : nfin x = true -> rnd (key x) = key x.
Proof.
  intros F; rewrite key_finite by exact F. unfold rnd.
  apply round_generic; auto with typeclass_instances.
  apply generic_format_B2R.
Qed.
Lemma rnd_opp r : rnd (- r) = - rnd r.
Proof. unfold rnd; simpl; apply round_NE_opp. Qed.

Lemma fl_le a b : a <= b -> fl a <= fl b.
Proof.
  intros H; apply rnd_le in H. unfold fl.
  apply Rle_max_compat_l. apply Rle_min_compat_l. exact H.
Qed.
Lemma fl_small r : Rabs (rnd r) < big -> fl r = rnd r.
Proof.
  intros H. apply Rabs_def2 in H. unfold fl.
  rewrite Rmin_right by lra. rewrite Rmax_right by lra. reflexivity.
Qed.
Lemma fl_key x : nnan x = false -> fl (key x) = key x.
Proof.
  intros N. destruct (nfin x) eqn:F.
  - rewrite fl_small; rewrite rnd_key by exact F; [reflexivity|apply key_finite_lt; exact F].
  - assert (R : rnd big = big).
    { unfold rnd. apply round_generic; auto with typeclass_instances.
      apply generic_format_bpow. unfold SpecFloat.fexp, SpecFloat.emin. lia. }
    pose proof big_pos.
    destruct x as [s|[|]| |s m e H1]; simpl in *; try discriminate.
    + unfold fl. rewrite rnd_opp, R, Rmin_right by lra. apply Rmax_left; lra.
    + unfold fl. rewrite R, Rmin_left by lra. apply Rmax_right; lra.
Qed.
Lemma fl_0 : fl 0 = 0.
Proof. pose proof big_pos; rewrite fl_small; rewrite rnd_0; [reflexivity|]. rewrite Rabs_R0; lra. Qed.
Lemma fl_bound r : - big <= fl r <= big.
Proof.
  pose proof big_pos. unfold fl. split; [apply Rmax_l|].
  apply Rmax_lub; [lra|apply Rmin_l].
Qed.
Lemma fl_pos r : 0 <= r -> 0 <= fl r.
Proof. intros H; rewrite <- fl_0; apply fl_le; exact H. Qed.
Lemma fl_neg r : r <= 0 -> fl r <= 0.
Proof. intros H; rewrite <- fl_0; apply fl_le; exact H. Qed.

(** Comparing a result of [fl] with a number amounts to ... one direction only. *)
Lemma fl_le_key r x : nnan x = false -> r <= key x -> fl r <= key x.
Proof. intros N H. rewrite <- (fl_key _ N). apply fl_le; exact H. Qed.
Lemma fl_ge_key r x : nnan x = false -> key x <= r -> key x <= fl r.
Proof. intros N H. rewrite <- (fl_key _ N) at 1. apply fl_le; exact H. Qed.

Lemma Bsign_neg (x : num) : B2R x < 0 -> Bsign x = true.
Proof.
  destruct x as [s|s| |[|] m e H]; simpl; intros; try lra; try reflexivity.
  exfalso. assert (0 < F2R (Float radix2 (Z.pos m) e)) by (apply F2R_gt_0; reflexivity). simpl in *. lra.
Qed.
Lemma Bsign_pos (x : num) : 0 < B2R x -> Bsign x = false.
Proof.
  destruct x as [s|s| |[|] m e H]; simpl; intros; try lra; try reflexivity.
  exfalso. assert (F2R (Float radix2 (Z.neg m) e) < 0) by (apply F2R_lt_0; reflexivity). simpl in *. lra.
Qed.

Lemma B2SF_inf (z : num) s : B2SF z = SpecFloat.S754_infinity s -> z = B754_infinity s.
Proof. destruct z; simpl; intros H; inversion H; reflexivity. Qed.

Lemma fl_big_pos r : 0 <= r -> big <= Rabs (rnd r) -> fl r = big.
Proof.
  intros H B. pose proof big_pos.
  assert (0 <= rnd r) by (rewrite <- rnd_0; apply rnd_le; exact H).
  rewrite Rabs_pos_eq in B by assumption.
  unfold fl. rewrite Rmin_left by exact B. apply Rmax_right; lra.
Qed.
Lemma fl_big_neg r : r <= 0 -> big <= Rabs (rnd r) -> fl r = - big.
Proof.
  intros H B. pose proof big_pos.
  assert (rnd r <= 0) by (rewrite <- rnd_0; apply rnd_le; exact H).
  rewrite Rabs_left1 in B by assumption.
  unfold fl. rewrite Rmin_right by lra. apply Rmax_left; lra.
Qed.

Lemma nmul_fin x y : nfin x = true -> nfin y = true ->
  nnan (nmul x y) = false /\ key (nmul x y) = fl (key x * key y).
Proof.
  intros Fx Fy. rewrite !(key_finite x), !(key_finite y) by assumption.
  pose proof (Bmult_correct 53 1024 prec53 prec53_lt mode_NE x y) as H.
  fold (nmul x y) in H. fold (rnd (B2R x * B2R y)) in H. fold big in H.
  revert H. case Rlt_bool_spec; intros L H.
  - destruct H as (H1 & H2 & _). unfold nfin in *. rewrite Fx, Fy in H2. simpl in H2.
    split; [apply nfin_nnan; exact H2|].
    rewrite key_finite by exact H2. rewrite fl_small by exact L. exact H1.
  - unfold binary_overflow, overflow_to_inf in H. apply B2SF_inf in H. rewrite H. split; [reflexivity|].
    assert (N : B2R x * B2R y <> 0).
    { intro E. rewrite E, rnd_0, Rabs_R0 in L. pose proof big_pos; lra. }
    destruct (Rdichotomy _ _ N) as [S|S].
    + rewrite fl_big_neg by lra.
      assert (B2R x <> 0) by (intro E; rewrite E in S; lra).
      assert (B2R y <> 0) by (intro E; rewrite E in S; lra).
      destruct (Rdichotomy _ _ H0) as [X|X]; destruct (Rdichotomy _ _ H1) as [Y|Y]; try nra.
      * rewrite (Bsign_neg _ X), (Bsign_pos _ Y); reflexivity.
      * rewrite (Bsign_pos _ X), (Bsign_neg _ Y); reflexivity.
    + rewrite fl_big_pos by lra.
      assert (B2R x <> 0) by (intro E; rewrite E in S; lra).
      assert (B2R y <> 0) by (intro E; rewrite E in S; lra).
      destruct (Rdichotomy _ _ H0) as [X|X]; destruct (Rdichotomy _ _ H1) as [Y|Y]; try nra.
      * rewrite (Bsign_neg _ X), (Bsign_neg _ Y); reflexivity.
      * rewrite (Bsign_pos _ X), (Bsign_pos _ Y); reflexivity.
Qed.

Lemma ndiv_fin x y : nfin x = true -> nfin y = true -> key y <> 0 ->
  nnan (ndiv x y) = false /\ key (ndiv x y) = fl (key x / key y).
Proof.
  intros Fx Fy. rewrite !(key_finite x), !(key_finite y) by assumption. intros Ny.
  pose proof (Bdiv_correct 53 1024 prec53 prec53_lt mode_NE x y Ny) as H.
  fold (ndiv x y) in H. fold (rnd (B2R x / B2R y)) in H. fold big in H.
  revert H. case Rlt_bool_spec; intros L H.
  - destruct H as (H1 & H2 & _). unfold nfin in *. rewrite Fx in H2.
    split; [apply nfin_nnan; exact H2|].
    rewrite key_finite by exact H2. rewrite fl_small by exact L. exact H1.
  - unfold binary_overflow, overflow_to_inf in H. apply B2SF_inf in H. rewrite H. split; [reflexivity|].
    assert (N : B2R x / B2R y <> 0).
    { intro E. rewrite E, rnd_0, Rabs_R0 in L. pose proof big_pos; lra. }
    assert (X0 : B2R x <> 0) by (intro E; rewrite E in N; unfold Rdiv in N; lra).
    destruct (Rdichotomy _ _ X0) as [X|X]; destruct (Rdichotomy _ _ Ny) as [Y|Y].
    + assert (0 < B2R x / B2R y) by (assert (0 < - B2R x / - B2R y) by (apply Rdiv_lt_0_compat; lra);
        replace (B2R x / B2R y) with (- B2R x / - B2R y) by (field; lra); assumption).
      rewrite fl_big_pos by lra. rewrite (Bsign_neg _ X), (Bsign_neg _ Y); reflexivity.
    + assert (0 < - B2R x / B2R y) by (apply Rdiv_lt_0_compat; lra).
      replace (- B2R x / B2R y) with (- (B2R x / B2R y)) in H0 by (field; lra).
      rewrite fl_big_neg by lra. rewrite (Bsign_neg _ X), (Bsign_pos _ Y); reflexivity.
    + assert (0 < B2R x / - B2R y) by (apply Rdiv_lt_0_compat; lra).
      replace (B2R x / - B2R y) with (- (B2R x / B2R y)) in H0 by (field; lra).
      rewrite fl_big_neg by lra. rewrite (Bsign_pos _ X), (Bsign_neg _ Y); reflexivity.
    + assert (0 < B2R x / B2R y) by (apply Rdiv_lt_0_compat; lra).
      rewrite fl_big_pos by lra. rewrite (Bsign_pos _ X), (Bsign_pos _ Y); reflexivity.
Qed.

Lemma Bsign_sum (x y : num) : Bsign x = Bsign y -> nfin x = true -> nfin y = true ->
  (Bsign x = true -> B2R x + B2R y <= 0) /\ (Bsign x = false -> 0 <= B2R x + B2R y).
Proof.
  intros E Fx Fy; split; intros S.
  - assert (B2R x <= 0) by (apply Rnot_lt_le; intro L; apply Bsign_pos in L; congruence).
    assert (B2R y <= 0) by (apply Rnot_lt_le; intro L; apply Bsign_pos in L; congruence). lra.
  - assert (0 <= B2R x) by (apply Rnot_lt_le; intro L; apply Bsign_neg in L; congruence).
    assert (0 <= B2R y) by (apply Rnot_lt_le; intro L; apply Bsign_neg in L; congruence). lra.
Qed.

Lemma nadd_fin x y : nfin x = true -> nfin y = true ->
  nnan (nadd x y) = false /\ key (nadd x y) = fl (key x + key y).
Proof.
  intros Fx Fy. rewrite !(key_finite x), !(key_finite y) by assumption.
  pose proof (Bplus_correct 53 1024 prec53 prec53_lt mode_NE x y Fx Fy) as H.
  fold (nadd x y) in H. fold (rnd (B2R x + B2R y)) in H. fold big in H.
  revert H. case Rlt_bool_spec; intros L H.
  - destruct H as (H1 & H2 & _).
    split; [apply nfin_nnan; exact H2|].
    rewrite key_finite by exact H2. rewrite fl_small by exact L. exact H1.
  - destruct H as (H & E). unfold binary_overflow, overflow_to_inf in H. apply B2SF_inf in H. rewrite H.
    split; [reflexivity|].
    destruct (Bsign_sum x y E Fx Fy) as [S1 S2].
    destruct (Bsign x).
    + rewrite fl_big_neg; auto.
    + rewrite fl_big_pos; auto.
Qed.

Lemma nfin_opp x : nfin (nopp x) = nfin x.
Proof. destruct x; reflexivity. Qed.
Lemma nnan_opp x : nnan (nopp x) = nnan x.
Proof. destruct x; reflexivity. Qed.
Lemma key_opp x : key (nopp x) = - key x.
Proof.
  destruct x as [s|[|]| |s m e H]; simpl; try lra.
  rewrite <- F2R_Zopp. destruct s; reflexivity.
Qed.
Lemma nfin_abs x : nfin (nabs x) = nfin x.
Proof. destruct x; reflexivity. Qed.
Lemma nnan_abs x : nnan (nabs x) = nnan x.
Proof. destruct x; reflexivity. Qed.
Lemma key_abs x : key (nabs x) = Rabs (key x).
Proof.
  pose proof big_pos.
  destruct x as [s|[|]| |s m e H1]; try (simpl; rewrite Rabs_R0; reflexivity).
  - simpl. rewrite Rabs_left by lra. lra.
  - simpl. rewrite Rabs_right by lra. reflexivity.
  - change (key (nabs (B754_finite s m e H1))) with (B2R (Babs (B754_finite s m e H1))).
    rewrite B2R_Babs. reflexivity.
Qed.

Lemma Bminus_plus (x y : num) : nfin x = true -> nfin y = true -> 
  nnan (nsub x y) = false /\ key (nsub x y) = fl (key x - key y).
Proof.
  intros Fx Fy. rewrite !(key_finite x), !(key_finite y) by assumption.
  pose proof (Bminus_correct 53 1024 prec53 prec53_lt mode_NE x y Fx Fy) as H.
  fold (nsub x y) in H. fold (rnd (B2R x - B2R y)) in H. fold big in H.
  revert H. case Rlt_bool_spec; intros L H.
  - destruct H as (H1 & H2 & _).
    split; [apply nfin_nnan; exact H2|].
    rewrite key_finite by exact H2. rewrite fl_small by exact L. exact H1.
  - destruct H as (H & E). unfold binary_overflow, overflow_to_inf in H. apply B2SF_inf in H. rewrite H.
    split; [reflexivity|].
    assert (E' : Bsign x = Bsign (nopp y)).
    { rewrite E. unfold nopp. rewrite Bsign_Bopp; [reflexivity|]. apply nfin_nnan; exact Fy. }
    destruct (Bsign_sum x (nopp y) E' Fx) as [S1 S2]; [rewrite nfin_opp; exact Fy|].
    unfold nopp in S1, S2. rewrite B2R_Bopp in S1, S2.
    destruct (Bsign x).
    + rewrite fl_big_neg; auto.
    + rewrite fl_big_pos; auto.
Qed.
Definition nsub_fin := Bminus_plus.

Lemma key_nzero : key nzero = 0.
Proof. reflexivity. Qed.

Lemma nofZ_spec z : (Z.abs z <= 2^53)%Z -> nfin (nofZ z) = true /\ key (nofZ z) = IZR z.
Proof.
  intros Hz.
  pose proof (binary_normalize_correct 53 1024 prec53 prec53_lt mode_NE z 0 false) as H.
  fold (nofZ z) in H.
  assert (G : F2R (Float radix2 z 0) = IZR z) by (unfold F2R; simpl; ring).
  rewrite G in H. cbv zeta in H.
  assert (R : round radix2 (SpecFloat.fexp 53 1024) (round_mode mode_NE) (IZR z) = IZR z).
  { destruct (Z.eq_dec z 0) as [->|Nz]; [apply round_0; auto with typeclass_instances|].
    apply round_generic; auto with typeclass_instances.
    rewrite <- G. destruct (Z.eq_dec (Z.abs z) (2^53)) as [E|E].
    - assert (G2 : F2R (Float radix2 z 0) = IZR (Z.sgn z) * bpow radix2 53).
      { rewrite G. change (bpow radix2 53) with (IZR (2^53)). rewrite <- mult_IZR. f_equal. lia. }
      rewrite G2.
      assert (P : generic_format radix2 (SpecFloat.fexp 53 1024) (bpow radix2 53)).
      { apply generic_format_bpow. unfold SpecFloat.fexp, SpecFloat.emin. lia. }
      destruct z as [|q|q]; [lia| |].
      { change (IZR (Z.sgn (Z.pos q))) with 1. rewrite Rmult_1_l. exact P. }
      { change (IZR (Z.sgn (Z.neg q))) with (-1).
        replace (-1 * bpow radix2 53) with (- bpow radix2 53) by ring. apply generic_format_opp; exact P. }
    - apply generic_format_F2R. intros _. unfold cexp, SpecFloat.fexp, SpecFloat.emin.
      rewrite G.
      assert (Hm : (mag radix2 (IZR z) <= 53)%Z).
      { apply mag_le_bpow. { apply IZR_neq; exact Nz. }
        rewrite <- abs_IZR. change (bpow radix2 53) with (IZR (2^53)). apply IZR_lt. lia. }
      lia. }
  rewrite R in H.
  assert (B : Rabs (IZR z) < bpow radix2 1024).
  { rewrite <- abs_IZR. apply Rle_lt_trans with (IZR (2^53)); [apply IZR_le; exact Hz|].
    change (IZR (2^53)) with (bpow radix2 53). apply bpow_lt. lia. }
  rewrite Rlt_bool_true in H by exact B. destruct H as (H1 & H2 & _).
  split; [exact H2|]. rewrite key_finite by exact H2. exact H1.
Qed.

Lemma none_fin : nfin none = true.
Proof. apply nofZ_spec; lia. Qed.
Lemma key_none : key none = 1.
Proof. apply nofZ_spec; lia. Qed.
