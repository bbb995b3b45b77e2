(** Termination of the backtracking loop. *)
From Coq Require Import List Bool ZArith Reals Lra Lia.
From Flocq Require Import Core.Core IEEE754.BinarySingleNaN.
From Verif Require Import Num FilterModel ConvModel PerturbLevels MuProofs LsModel LsSpec LsProofs LsBack LsFind.
Import ListNotations.
Set Implicit Arguments.
Local Open Scope R_scope.

Notation fexp := (SpecFloat.fexp 53 1024).

Lemma eq_by_compute2 a b c : neqb (nmul a b) c = true -> nfin a = true -> nfin b = true -> fl (key a * key b) = key c.
Proof. intros H F1 F2. apply neqb_iff in H. destruct H as (_ & _ & E). rewrite <- E. symmetry. apply nmul_fin; auto. Qed.

Lemma pred_small a : nfin a = true -> 0 < key a -> pred radix2 fexp (key a) = 0 -> key a = bpow radix2 (-1074).
Proof.
  intros F P E. rewrite <- (succ_pred radix2 fexp (key a) (fmt_key a F)). rewrite E.
  rewrite succ_0. rewrite ulp_FLT_0 with (emin := (-1074)%Z) (prec := 53%Z); reflexivity.
Qed.

Lemma minsub_half r : 0 <= r <= bpow radix2 (-1075) -> fl r = 0.
Proof.
  intros [P H]. apply Rle_antisym; [|apply fl_pos; exact P].
  eapply Rle_trans; [apply fl_le; exact H|].
  unfold fl, rnd.
  assert (R0 : round radix2 fexp (round_mode mode_NE) (bpow radix2 (-1075)) = 0).
  { change (round_mode mode_NE) with ZnearestE. unfold round, F2R, scaled_mantissa, cexp. rewrite mag_bpow.
    change (fexp (-1075 + 1)) with (-1074)%Z. rewrite <- bpow_plus.
    change (-1075 + - -1074)%Z with (-1)%Z. cbn [Fnum Fexp].
    assert (Z : ZnearestE (bpow radix2 (-1)) = 0%Z).
    { unfold Znearest. change (bpow radix2 (-1)) with (/ 2). 
      assert (Fl : Zfloor (/ 2) = 0%Z) by (apply Zfloor_imp; simpl; lra). rewrite Fl.
      rewrite Rcompare_Eq by (simpl; lra). reflexivity. }
    rewrite Z. lra. }
  rewrite R0. apply Rmax_lub; [pose proof big_pos; lra|apply Rmin_r].
Qed.

Lemma shrink a r : nfin a = true -> nfin r = true -> 0 < key a -> 0 <= key r < 1 ->
  bpow radix2 (-1022) < key a \/ key r <= / 2 ->
  nfin (nmul a r) = true /\ 0 <= key (nmul a r) < key a.
Proof.
  intros Fa Fr Pa [R0 R1] C.
  destruct (nmul_fin a r Fa Fr) as [N K].
  assert (L : 0 <= key (nmul a r) < key a).
  { rewrite K. split; [apply fl_pos; nra|].
    assert (PF : generic_format radix2 fexp (pred radix2 fexp (key a))) by (apply generic_format_pred; [typeclasses eauto|apply fmt_key; auto]).
    assert (PL : pred radix2 fexp (key a) < key a) by (apply pred_lt_id; lra).
    assert (P0 : 0 <= pred radix2 fexp (key a)) by (apply pred_ge_0; [typeclasses eauto|lra|apply fmt_key; auto]).
    assert (SP := succ_pred radix2 fexp (key a) (fmt_key a Fa)).
    set (u := pred radix2 fexp (key a)) in *.
    assert (Strict : key a * key r < (u + key a) / 2 -> fl (key a * key r) < key a).
    { intros H. rewrite <- SP in H at 2. assert (V : rnd (key a * key r) <= u).
      { apply round_N_le_midp; auto; typeclasses eauto. }
      unfold fl. apply Rmax_lub_lt; [pose proof big_pos; lra|].
      eapply Rle_lt_trans; [apply Rmin_r|]. lra. }
    destruct C as [C|C].
    - apply Strict.
      assert (PR : key r <= 1 - bpow radix2 (-53)).
      { assert (G1' : generic_format radix2 fexp 1).
        { change 1 with (bpow radix2 0). apply generic_format_bpow. unfold SpecFloat.fexp, SpecFloat.emin; lia. }
        pose proof (pred_ge_gt radix2 fexp (key r) 1 (fmt_key _ Fr) G1' R1) as PG.
        assert (PE : pred radix2 fexp 1 = 1 - bpow radix2 (-53)).
        { change 1 with (bpow radix2 0) at 1. rewrite pred_bpow. reflexivity. }
        rewrite PE in PG. exact PG. }
      assert (UL : u >= bpow radix2 (-1022)).
      { apply Rle_ge. apply pred_ge_gt; [typeclasses eauto| |apply fmt_key; auto|exact C].
        apply generic_format_bpow. unfold SpecFloat.fexp, SpecFloat.emin; lia. }
      assert (SU : u + ulp radix2 fexp u = key a).
      { rewrite <- SP. rewrite succ_eq_pos; auto. }
      pose proof (ulp_FLT_le radix2 (-1074) 53 u) as UU. rewrite Rabs_pos_eq in UU by auto.
      specialize (UU ltac:(apply Rge_le; exact UL)).
      change (1 - 53)%Z with (-52)%Z in UU. change (ulp radix2 (FLT_exp (-1074) 53) u) with (ulp radix2 fexp u) in UU.
      assert (B : bpow radix2 (-52) = 2 * bpow radix2 (-53)).
      { change (-52)%Z with (1 + -53)%Z. rewrite bpow_plus. reflexivity. }
      rewrite B in UU. pose proof (bpow_gt_0 radix2 (-53)). nra.
    - destruct P0 as [P0|P0].
      + apply Strict. nra.
      + symmetry in P0. unfold u in P0. apply pred_small in P0; auto.
        rewrite minsub_half; auto. split; [nra|].
        change (-1075)%Z with (-1 + -1074)%Z. rewrite bpow_plus, P0. change (bpow radix2 (-1)) with (/ 2).
        pose proof (bpow_gt_0 radix2 (-1074)). nra. }
  split; [|exact L].
  apply key_strict_finite; auto. pose proof big_pos. apply key_finite_lt in Fa. apply Rabs_def2 in Fa. lra.
Qed.

Section T.
Variables (pw : num -> num -> num) (log10 : num -> num) (ao : aopts) (bo : bopts) (I D : Type).
Notation bls := (@bls I D).
Notation env := (@env I D).

(** the smallest step size is large enough for the reduction factor *)
Definition amin_ok (amin : num) : Prop :=
  nnan amin = true \/ bpow radix2 (-1022) <= key amin \/ (0 <= key amin /\ key (b_red bo) <= / 2).
Definition red_ok : Prop := nfin (b_red bo) = true /\ 0 <= key (b_red bo) < 1.

Lemma bt_ends (e : env) amax amin d : red_ok -> amin_ok amin -> forall fuel alpha test n err last (s : bls),
  nfin alpha = true -> 0 <= key alpha -> (0 <= n)%Z -> (rank alpha + (if (n =? 0)%Z then 2 else 1) <= Z.of_nat fuel)%Z ->
  bt_loop pw log10 ao bo e amax amin d fuel alpha test n err last s <> None.
Proof.
  intros [RF RK] AM. induction fuel as [|fuel IH]; intros alpha test n err last s F K N M.
  { exfalso. pose proof (rank_pos alpha K). destruct (n =? 0)%Z; lia. }
  cbn [bt_loop].
  destruct (negb (ngt alpha amin || (n =? 0)%Z)) eqn:G; [discriminate|].
  assert (W : nfin (nmul alpha (b_red bo)) = true /\ 0 <= key (nmul alpha (b_red bo)) <= key alpha).
  { destruct (nmul_fin _ _ F RF) as [W1 W2]. assert (0 <= key (nmul alpha (b_red bo)) <= key alpha).
    { rewrite W2. split; [apply fl_pos; nra|]. apply fl_le_key; [apply nfin_nnan; auto|nra]. }
    split; [|assumption]. apply key_strict_finite; auto. pose proof big_pos. apply key_finite_lt in F. apply Rabs_def2 in F. lra. }
  destruct W as (WF & W0 & W1).
  assert (M' : (rank (nmul alpha (b_red bo)) + 1 <= Z.of_nat fuel)%Z).
  { destruct (n =? 0)%Z eqn:EN.
    - assert (rank (nmul alpha (b_red bo)) <= rank alpha)%Z by (apply rank_le; lra). lia.
    - rewrite orb_false_r in G. apply negb_false_iff in G. unfold ngt in G. apply nlt_iff in G. destruct G as (G1 & G2 & G3).
      assert (rank (nmul alpha (b_red bo)) < rank alpha)%Z; [|lia].
      destruct AM as [AM|AM]; [congruence|].
      assert (PA : 0 < key alpha). { pose proof (bpow_gt_0 radix2 (-1022)). destruct AM; lra. }
      destruct (shrink alpha (b_red bo) F RF PA RK ltac:(destruct AM; [left; lra|right; tauto])) as (S1 & S2).
      apply rank_lt; auto. }
  assert (Rec : forall test err last (s : bls), bt_loop pw log10 ao bo e amax amin d fuel (nmul alpha (b_red bo)) test (n + 1) err last s <> None).
  { intros. apply IH; auto; [lia|]. destruct (n + 1 =? 0)%Z eqn:E; [apply Z.eqb_eq in E; lia|exact M']. }
  match goal with |- match ?X with _ => _ end <> None => destruct X as [[[s1 acc0] err1] f] end.
  destruct acc0; [discriminate|]. destruct (in_wd s1); [discriminate|]. destruct (_ && _); [discriminate|].
  match goal with |- match ?X with _ => _ end <> None => destruct X as [s2 soc] end.
  destruct soc as [[[al' p'] d']|]; [discriminate|]. apply Rec.
Qed.

(** the step bounds of the environment are step sizes *)
Definition steps_ok (e : env) : Prop := forall p d, nfin (e_alpha_max e p d) = true /\ 0 <= key (e_alpha_max e p d) <= 1.
Definition min_ok (e : env) : Prop := forall p a, amin_ok (alpha_min pw ao (e_gbd e p (e_delta e)) (e_ctheta e p) a).

Definition enough : nat := Z.to_nat (2 ^ 1074 + 3).
Lemma enough_big x : nfin x = true -> 0 <= key x <= 1 -> (rank x + 2 <= Z.of_nat enough)%Z.
Proof.
  intros F K. unfold enough. rewrite Z2Nat.id by (assert (0 <= 2 ^ 1074)%Z by (apply Z.pow_nonneg; lia); lia).
  pose proof (@rank_le x 1 (proj2 K)) as R. rewrite Rmult_1_l in R.
  change (bpow radix2 1074) with (IZR (2 ^ 1074)) in R. rewrite Zfloor_IZR in R. lia.
Qed.

Lemma do_bt_ends (e : env) fuel skip d n (s : bls) : red_ok -> steps_ok e -> in_wd s = true \/ min_ok e -> (0 <= n)%Z -> (in_wd s = true -> n = 0%Z) -> (enough <= fuel)%nat ->
  do_bt pw log10 ao bo e fuel skip d n s <> None.
Proof.
  intros R S0 M N W E. unfold do_bt.
  set (amax := e_alpha_max e (curr s) d).
  destruct (S0 (curr s) d) as [AF AK]. fold amax in AF, AK.
  match goal with |- context [bt_loop _ _ _ _ e amax ?m] => set (amin := m) end.
  match goal with |- match ?X with _ => _ end <> None => destruct X as [s1 corr] eqn:EX end.
  assert (IW : in_wd s1 = in_wd s).
  { destruct skip; [injection EX as <- <-; reflexivity|].
    destruct (e_corr e (curr s) d) as [[[al' p'] d']|]; [|injection EX as <- <-; reflexivity].
    destruct (a_check pw log10 ao _ _ _ _) as [a [[[] f]|]]; injection EX as <- <-; reflexivity. }
  assert (T : bt_loop pw log10 ao bo e amax amin d fuel (if skip then nmul amax (b_red bo) else amax)
     (if in_wd s then wd_alpha_test s else amax) n false (curr s1) s1 <> None).
  { assert (A0 : nfin (if skip then nmul amax (b_red bo) else amax) = true /\ 0 <= key (if skip then nmul amax (b_red bo) else amax) <= 1).
    { destruct skip; [|auto]. destruct R as [RF RK]. destruct (nmul_fin _ _ AF RF) as [W1 W2].
      assert (0 <= key (nmul amax (b_red bo)) <= 1).
      { rewrite W2. split; [apply fl_pos; nra|]. rewrite <- key_none. apply fl_le_key; [reflexivity|]. rewrite key_none. nra. }
      split; [|assumption]. apply key_strict_finite; auto. assert (1 < big) by (unfold big; change 1 with (bpow radix2 0); apply bpow_lt; lia). lra. }
    destruct A0 as [A0 A1].
    destruct (in_wd s) eqn:EW.
    - (* one pass *)
      destruct fuel as [|fuel]; [exfalso; pose proof (enough_big _ A0 A1); pose proof (rank_pos _ (proj1 A1)); lia|].
      cbn [bt_loop]. destruct (negb _); [discriminate|].
      match goal with |- match ?X with _ => _ end <> None => destruct X as [[[s2 acc0] err1] f] eqn:E2 end.
      assert (in_wd s2 = true).
      { rewrite <- IW. destruct (_ || _).
        - destruct (e_barr e _); [destruct (e_theta e _)|]; injection E2 as <- _ _ _; reflexivity.
        - destruct (a_check pw log10 ao _ _ _ _) as [a [[b f0]|]]; injection E2 as <- _ _ _; reflexivity. }
      destruct acc0; [discriminate|]. rewrite H. discriminate.
    - destruct M as [M|M]; [discriminate|]. apply bt_ends; auto; [apply M|apply A1|].
      pose proof (enough_big _ A0 A1). destruct (n =? 0)%Z; lia. }
  destruct corr as [[[al' p'] d']|]; [discriminate|].
  destruct (bt_loop _ _ _ _ _ _ _ _ _ _ _ _ _ _ _) as [[s2 r2]|]; [discriminate|congruence].
Qed.

Lemma do_bt_steps e fuel skip d n (s s' : bls) r : (0 <= n)%Z -> do_bt pw log10 ao bo e fuel skip d n s = Some (s', r) -> (0 <= r_steps r)%Z.
Proof.
  intros N H. unfold do_bt in H.
  match type of H with match ?X with _ => _ end = _ => destruct X as [s1 corr] end.
  destruct corr as [[[al' p'] d']|]; [injection H as _ <-; exact N|].
  destruct (bt_loop _ _ _ _ _ _ _ _ _ _ _ _ _ _ _) as [[s2 r2]|] eqn:E; [|discriminate H].
  apply bt_loop_spec in E. destruct (r_accept r2); injection H as _ <-; lia.
Qed.

Lemma ls_ends (e : env) fuel d (s : bls) : red_ok -> steps_ok e -> min_ok e -> (enough <= fuel)%nat ->
  ls_loop pw log10 ao bo e fuel 2 false d 0 s <> None.
Proof.
  intros R S0 M E.
  assert (X : forall skip d n (s : bls), (0 <= n)%Z -> in_wd s = false -> ls_loop pw log10 ao bo e fuel 1 skip d n s <> None).
  { intros skip d1 n s1 N W. cbn [ls_loop].
    destruct (do_bt pw log10 ao bo e fuel skip d1 n s1) as [[s2 r]|] eqn:ED.
    - assert (in_wd s2 = in_wd s1).
      { apply do_bt_spec in ED. destruct ED as [_ _ -> _|_ _ [a ->] _ _|_ _ -> _]; reflexivity. }
      rewrite H, W. discriminate.
    - exfalso. revert ED. apply do_bt_ends; auto. congruence. }
  remember 1%nat as one. cbn [ls_loop].
  destruct (do_bt pw log10 ao bo e fuel false d 0 s) as [[s2 r]|] eqn:ED.
  - destruct (in_wd s2); [|discriminate]. destruct (r_accept r); [discriminate|]. destruct (_ || _); [|discriminate].
    apply X; [|reflexivity]. eapply do_bt_steps; [|exact ED]. lia.
  - exfalso. revert ED. apply do_bt_ends; auto. lia.
Qed.

Lemma find_ends (e : env) fuel (s : bls) : red_ok -> steps_ok e -> min_ok e -> (enough <= fuel)%nat ->
  snd (find_trial pw log10 ao bo e fuel s) <> LSLoop.
Proof.
  intros R S0 M E. unfold find_trial.
  destruct (fallback (ft_entry e s) && negb (e_has_resto e)); [discriminate|].
  destruct (ft_goto e (ft_entry e s)) as [s1 g3].
  destruct (ft_watch bo e g3 s1) as [[[s2 goto] tiny2] d].
  match goal with |- context [ft_body _ _ _ _ e fuel goto ?t ?p d ?s] => set (tiny := t); set (pt := p); set (s3 := s) end.
  clearbody tiny pt s3.
  assert (B : ft_body pw log10 ao bo e fuel goto tiny pt d s3 <> None).
  { unfold ft_body. destruct tiny; [discriminate|]. destruct goto; [discriminate|].
    destruct (in_soft s3).
    - cbv zeta. destruct (_ <? _)%Z; [discriminate|]. destruct (try_soft _ _ _ _ _ _ _) as [s4 [[p []]|]]; discriminate.
    - destruct (ls_loop pw log10 ao bo e fuel 2 false d 0 s3) as [[[s4 r] w]|] eqn:EL.
      + destruct w; [discriminate|]. destruct (r_accept r); discriminate.
      + exfalso. revert EL. apply ls_ends; auto. }
  destruct (ft_body pw log10 ao bo e fuel goto tiny pt d s3) as [[[[s4 [[p h]|]] n] d']|]; [discriminate| |congruence].
  assert (NR : forall s : bls, snd (ft_resto ao e s) <> LSLoop).
  { intros s5. unfold ft_resto. cbv zeta. destruct (e_acceptable _ _); [discriminate|]. destruct (negb (e_has_resto e)); [discriminate|].
    destruct (e_almost_feasible _ _). { destruct (restore_acc _) as [s6 found]. discriminate. }
    destruct (e_resto e _); [discriminate| |discriminate]. destruct (restore_acc _) as [s6 found]. discriminate. }
  unfold ft_fail. destruct (negb (rigorous s4)); [discriminate|].
  destruct (negb (in_soft s4) && _ && _); [|apply NR]. cbv zeta.
  destruct (try_soft _ _ _ _ _ _ _) as [s5 [[p []]|]]; [discriminate|discriminate|apply NR].
Qed.

(** ** the smallest step size is not negative *)
Definition nonneg (x : num) : Prop := nlt x nzero = false.
Lemma nonneg_key x : nonneg x -> nnan x = true \/ 0 <= key x.
Proof.
  unfold nonneg. intros H. destruct (nnan x) eqn:E; [auto|right]. rewrite <- key_nzero. apply nlt_false; auto.
Qed.
Lemma key_nonneg x : nnan x = true \/ 0 <= key x -> nonneg x.
Proof.
  intros H. unfold nonneg. destruct (nlt x nzero) eqn:E; [|reflexivity]. apply nlt_iff in E. rewrite key_nzero in E.
  destruct H as [H|H]; [destruct E; congruence|lra].
Qed.
Lemma nonneg_sign x : nonneg x -> nnan x = true \/ Bsign x = false \/ x = B754_zero true.
Proof.
  intros H. apply nonneg_key in H. destruct H as [H|H]; [auto|right].
  destruct x as [[]|[]| |[] m ex B]; auto.
  - exfalso. cbn in H. pose proof big_pos. lra.
  - exfalso. rewrite key_finite in H by reflexivity. cbn in H.
    assert (F2R (Float radix2 (cond_Zopp true (Zpos m)) ex) < 0) by (apply F2R_lt_0; cbn; lia). cbn in H0. lra.
Qed.
Lemma nonneg_mul x y : nonneg x -> nonneg y -> nonneg (nmul x y).
Proof.
  intros X Y. destruct (nfin x) eqn:Fx; [destruct (nfin y) eqn:Fy|].
  - apply key_nonneg. right. destruct (nmul_fin x y Fx Fy) as [_ ->]. apply fl_pos.
    destruct (nonneg_key X) as [A|A]; [destruct x; discriminate|]. destruct (nonneg_key Y) as [B|B]; [destruct y; discriminate|]. nra.
  - apply nonneg_sign in X; apply nonneg_sign in Y. destruct y as [[]|[]| |[] m' e' B']; try discriminate Fy; destruct x as [[]|[]| |[] m ex B]; try reflexivity;
      destruct X as [X|[X|X]], Y as [Y|[Y|Y]]; try discriminate X; try discriminate Y.
  - apply nonneg_sign in X; apply nonneg_sign in Y. destruct x as [[]|[]| |[] m ex B]; try discriminate Fx; destruct y as [[]|[]| |[] m' e' B']; try reflexivity;
      destruct X as [X|[X|X]], Y as [Y|[Y|Y]]; try discriminate X; try discriminate Y.
Qed.
(** a quotient of a nonnegative number and a positive one, or of a nonnegative
    number and one that is no negative zero *)
Lemma nonneg_div x y : nonneg x -> nonneg y -> y <> B754_zero true -> nonneg (ndiv x y).
Proof.
  intros X Y NZ. destruct (nfin x) eqn:Fx; [destruct (nfin y) eqn:Fy|].
  - destruct (Req_dec (key y) 0) as [E|E].
    + assert (y = B754_zero false).
      { destruct y as [[]|[]| |s m ex B]; try discriminate Fy; try reflexivity; [congruence|].
        exfalso. rewrite key_finite in E by reflexivity. cbn in E. apply eq_0_F2R in E. destruct s; discriminate E. }
      subst y. apply nonneg_sign in X. destruct x as [[]|[]| |[] m ex B]; try discriminate Fx; try reflexivity.
      destruct X as [X|[X|X]]; discriminate X.
    + apply key_nonneg. right. destruct (ndiv_fin x y Fx Fy E) as [_ ->]. apply fl_pos.
      destruct (nonneg_key X) as [A|A]; [destruct x; discriminate|]. destruct (nonneg_key Y) as [B|B]; [destruct y; discriminate|].
      apply Rmult_le_pos; [lra|]. apply Rlt_le, Rinv_0_lt_compat. lra.
  - apply nonneg_sign in X; apply nonneg_sign in Y. destruct y as [[]|[]| |[] m' e' B']; try discriminate Fy; destruct x as [[]|[]| |[] m ex B]; try reflexivity;
      destruct X as [X|[X|X]], Y as [Y|[Y|Y]]; try discriminate X; try discriminate Y.
  - apply nonneg_sign in X; apply nonneg_sign in Y. destruct x as [[]|[]| |[] m ex B]; try discriminate Fx; destruct y as [[]|[]| |[] m' e' B']; try reflexivity;
      destruct X as [X|[X|X]], Y as [Y|[Y|Y]]; try discriminate X; try discriminate Y; congruence.
Qed.
Lemma nonneg_min x y : nonneg x -> nonneg y -> nonneg (nmin x y).
Proof. unfold nmin. destruct (nlt y x); auto. Qed.

(** std::pow of a nonnegative number is a nonnegative number or NaN, never -0 *)
Definition pow_ok : Prop := forall x y, nonneg x -> nonneg (pw x y) /\ pw x y <> B754_zero true.

Lemma alpha_min_nonneg g t a : pow_ok -> nonneg (a_gamma_theta ao) -> nonneg (a_gamma_phi ao) -> nonneg (a_delta ao) -> nonneg (a_alpha_min_frac ao) ->
  nonneg t -> nonneg (alpha_min pw ao g t a).
Proof.
  intros P O1 O2 O3 O4 T. unfold alpha_min. apply nonneg_mul; [exact O4|].
  destruct (nlt g nzero) eqn:G; [|exact O1].
  assert (NG : nonneg (nopp g) /\ nopp g <> B754_zero true).
  { apply nlt_iff in G. rewrite key_nzero in G. destruct G as (G1 & _ & G2). split.
    - apply key_nonneg. right. rewrite key_opp. lra.
    - intros E. assert (K : key (nopp g) = 0) by (rewrite E; reflexivity). rewrite key_opp in K. lra. }
  destruct NG as [NG NZ].
  assert (A : nonneg (nmin (a_gamma_theta ao) (ndiv (nmul (a_gamma_phi ao) t) (nopp g)))).
  { apply nonneg_min; auto. apply nonneg_div; auto. apply nonneg_mul; auto. }
  destruct (nle t (theta_min a)); [|exact A].
  apply nonneg_min; auto. apply nonneg_div; [apply nonneg_mul; auto; apply P, T|apply P, NG|apply P, NG].
Qed.
End T.
