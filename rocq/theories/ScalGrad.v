(** Gradient-based scaling factors: exact arithmetic and IEEE doubles; identity of
    the operations without scaling in IEEE doubles. *)
From Coq Require Import List Bool Arith Lia ZArith Reals Lra.
From Flocq Require Import Core BinarySingleNaN.
From Verif Require Import Num VecModel ScalModel ScalSpec ScalProofs InitNum.
Import ListNotations.
Local Open Scope R_scope.

Section Real.
Variable lg : R -> R.
Notation OR := (R_ops lg).

Lemma fr_max_ub l a : In a l -> a <= fold_right Rmax 0 l.
Proof. induction l as [|b l IH]; cbn [In fold_right]; [tauto|]. intros [->|H]; [apply Rmax_l|]. eapply Rle_trans; [apply IH, H|apply Rmax_r]. Qed.
Lemma fr_max_in l : fold_right Rmax 0 l = 0 \/ In (fold_right Rmax 0 l) l.
Proof.
  induction l as [|b l IH]; cbn [fold_right In]; [auto|]. destruct (Rle_dec b (fold_right Rmax 0 l)) as [L|L].
  - rewrite Rmax_right by auto. destruct IH; auto.
  - rewrite Rmax_left by lra. auto.
Qed.
Lemma amax_ub l a : In a l -> Rabs a <= amax OR l.
Proof. intros H. rewrite amax_R. apply fr_max_ub, in_map, H. Qed.
Lemma amax_in l : 0 < amax OR l -> exists a, In a l /\ Rabs a = amax OR l.
Proof.
  rewrite amax_R. intros P. destruct (fr_max_in (map Rabs l)) as [E|I0]; [lra|]. apply in_map_iff in I0. destruct I0 as (a & E & I0).
  exists a. auto.
Qed.

Lemma grad_df_max maxgrad minv g : 0 < maxgrad ->
  let df := grad_df OR maxgrad 0 minv (Some g) in
  ((forall a, In a g -> Rabs a <= maxgrad) -> df = Rmax 1 minv) /\
  (forall a, In a g -> maxgrad < Rabs a -> (forall b, In b g -> Rabs b <= Rabs a) -> df = Rmax (maxgrad / Rabs a) minv).
Proof.
  intros P. unfold grad_df. cbv zeta. rewrite tmax_Rmax. cbn [R_ops teq tlt t0 t1 tdiv]. case Req_bool_spec; [intros _|intros N; lra].
  split.
  - intros H. case Rlt_bool_spec; auto. intros L. assert (A : 0 < amax OR g) by lra. destruct (amax_in g A) as (a & I0 & E).
    specialize (H a I0). lra.
  - intros a I0 L H. assert (E : amax OR g = Rabs a).
    { pose proof (amax_ub g a I0). destruct (amax_in g) as (b & Ib & Eb); [lra|]. specialize (H b Ib). lra. }
    rewrite E. case Rlt_bool_spec; auto. intros. lra.
Qed.
Lemma grad_df_target maxgrad target minv g : 0 < target ->
  let df := grad_df OR maxgrad target minv (Some g) in
  ((forall a, In a g -> a = 0) -> df = Rmax 1 minv) /\
  (forall a, In a g -> a <> 0 -> (forall b, In b g -> Rabs b <= Rabs a) -> df = Rmax (target / Rabs a) minv).
Proof.
  intros P. unfold grad_df. cbv zeta. rewrite tmax_Rmax. cbn [R_ops teq tlt t0 t1 tdiv].
  case Req_bool_spec; [intros E; lra|intros _]. split.
  - intros H. case Req_bool_spec; auto. intros N. exfalso.
    assert (A : 0 < amax OR g). { assert (0 <= amax OR g) by (rewrite amax_R; apply fr_max_nonneg). lra. }
    destruct (amax_in g A) as (a & I0 & E). rewrite (H a I0), Rabs_R0 in E. lra.
  - intros a I0 N H. pose proof (Rabs_pos_lt a N). assert (E : amax OR g = Rabs a).
    { pose proof (amax_ub g a I0). destruct (amax_in g) as (b & Ib & Eb); [lra|]. specialize (H b Ib). lra. }
    rewrite E. case Req_bool_spec; auto. intros. lra.
Qed.

Lemma row_amax_R d r : 0 < d -> row_amax OR d r = Rmax d (fold_right Rmax 0 (map Rabs r)).
Proof.
  unfold row_amax. revert d. induction r as [|a r IH]; intros d D; cbn [fold_left map fold_right]; [rewrite Rmax_left; lra|].
  rewrite tmax_Rmax. cbn [R_ops tabs]. rewrite IH; [rewrite Rmax_assoc; auto|]. eapply Rlt_le_trans; [exact D|apply Rmax_l].
Qed.
(** largest absolute value in a row, at least DBL_MIN *)
Definition rowmax (dmin : R) (r : list R) : R := Rmax dmin (fold_right Rmax 0 (map Rabs r)).
Lemma rowmax_pos dmin r : 0 < dmin -> 0 < rowmax dmin r.
Proof. intros D. unfold rowmax. eapply Rlt_le_trans; [exact D|apply Rmax_l]. Qed.

Lemma amax_rows dmin A : 0 < dmin -> forall m, 
  (amax OR (map (row_amax OR dmin) A) <= m <-> (0 <= m /\ forall r, In r A -> rowmax dmin r <= m)).
Proof.
  intros D m. rewrite amax_R. split.
  - intros H. split; [eapply Rle_trans; [apply fr_max_nonneg|exact H]|]. intros r I0. eapply Rle_trans; [|exact H].
    replace (rowmax dmin r) with (Rabs (row_amax OR dmin r)).
    + apply fr_max_ub, in_map, in_map, I0.
    + rewrite row_amax_R by auto. apply Rabs_right. pose proof (rowmax_pos dmin r D). unfold rowmax in *. lra.
  - intros [M H]. induction A as [|r A IH]; cbn [map fold_right]; auto. apply Rmax_lub.
    + rewrite row_amax_R by auto. fold (rowmax dmin r). pose proof (rowmax_pos dmin r D). rewrite Rabs_right by lra. apply H. left; auto.
    + apply IH. intros r' I0. apply H. right; auto.
Qed.

Lemma grad_dc_max maxgrad minv dmin A target : 0 < dmin -> 0 < maxgrad -> target <= 0 -> 0 <= minv -> A <> [] ->
  let dc := grad_dc OR maxgrad target minv dmin (Some A) in
  (dc = None <-> (forall r, In r A -> rowmax dmin r <= maxgrad)) /\
  (forall d, dc = Some d -> d = map (fun r => Rmax (Rmin (maxgrad / rowmax dmin r) 1) minv) A).
Proof.
  intros D G T M N. unfold grad_dc. destruct A as [|r0 A0] eqn:EA; [congruence|]. rewrite <- EA in *. clear EA r0 A0.
  cbv zeta. cbn [R_ops tlt t0 t1]. case (Rlt_bool_spec 0 target); [intros; lra|intros _]. cbn [negb].
  pose proof (amax_rows dmin A D maxgrad) as AR.
  case (Rlt_bool_spec maxgrad (amax OR (map (row_amax OR dmin) A))); intros L.
  - split.
    + split.
      * destruct (Rlt_bool 0 minv); cbn [option_map]; intros E; discriminate E.
      * intros H. exfalso. apply (Rlt_not_le _ _ L). apply AR. split; [lra|auto].
    + intros d E. assert (H : d = map (fun y => Rmax (Rmin y 1) minv) (vscal OR maxgrad (recip OR (map (row_amax OR dmin) A)))).
      { revert E. case Rlt_bool_spec; intros M'; cbn [option_map]; intros E; injection E as <-.
        - rewrite map_map. apply map_ext. intros y. rewrite tmax_Rmax, tmin_Rmin. reflexivity.
        - assert (minv = 0) by lra. subst minv. 
          assert (GP : forall y, In y (vscal OR maxgrad (recip OR (map (row_amax OR dmin) A))) -> tmin OR y (t1 OR) = Rmax (Rmin y 1) 0).
          { intros y I0. rewrite tmin_Rmin. cbn [R_ops t1]. rewrite Rmax_left; auto.
            assert (Y : 0 < y); [|unfold Rmin; destruct (Rle_dec y 1); lra].
            assert (RP : forall z, In z (recip OR (map (row_amax OR dmin) A)) -> 0 < z).
            { intros z Iz. unfold recip in Iz. apply in_map_iff in Iz. destruct Iz as (w & E & Iw). apply in_map_iff in Iw.
              destruct Iw as (r & E' & Ir). subst. rewrite row_amax_R by auto. cbn [R_ops tdiv t1]. unfold Rdiv. rewrite Rmult_1_l.
              apply Rinv_0_lt_compat. pose proof (rowmax_pos dmin r D). unfold rowmax in *. lra. }
            unfold vscal in I0. cbn [R_ops teq t1] in I0. destruct (Req_bool maxgrad 1); [auto|].
            apply in_map_iff in I0. destruct I0 as (z & E & Iz). subst. cbn [R_ops tmul]. apply Rmult_lt_0_compat; auto. }
          apply map_ext_in. exact GP. }
      rewrite H. clear H E.
      assert (V : vscal OR maxgrad (recip OR (map (row_amax OR dmin) A)) = map (fun r => maxgrad / rowmax dmin r) A).
      { apply list_eq_nth.
        - rewrite vscal_len. unfold recip. rewrite !map_length. auto.
        - intros j J. rewrite vscal_nth. unfold recip. rewrite !map_map.
          assert (JA : (j < length A)%nat) by (rewrite vscal_len in J; unfold recip in J; rewrite !map_length in J; auto).
          rewrite nth_indep with (d' := tdiv OR (t1 OR) (row_amax OR dmin [])) by (rewrite map_length; auto).
          rewrite (map_nth (fun x => tdiv OR (t1 OR) (row_amax OR dmin x))).
          rewrite nth_indep with (n := j) (l := map (fun r => maxgrad / rowmax dmin r) A) (d' := maxgrad / rowmax dmin []) by (rewrite map_length; auto).
          rewrite (map_nth (fun r => maxgrad / rowmax dmin r)). rewrite row_amax_R by auto. cbn [R_ops tdiv t1]. fold (rowmax dmin (nth j A [])).
          unfold Rdiv. ring. }
      rewrite V, map_map. reflexivity.
  - split.
    + split; [intros _; apply AR; auto|]. intros _. destruct (Rlt_bool 0 minv); reflexivity.
    + intros d. destruct (Rlt_bool 0 minv); cbn [option_map]; intros E; discriminate E.
Qed.
End Real.

(** ** IEEE doubles *)
Lemma big_gt1 : 1 < big.
Proof. pose proof (key_finite_lt none none_fin) as H. rewrite key_none, Rabs_R1 in H. exact H. Qed.

Section Dbl.
Variable lgd : num -> num.
Notation OD := (num_ops lgd).

Lemma nmul_1 x : nmul none x = x.
Proof.
  destruct x as [sg|sg| |sg m e H]; try (destruct sg; reflexivity); try reflexivity.
  set (x := B754_finite sg m e H : num). assert (F : nfin x = true) by reflexivity.
  pose proof (Bmult_correct 53 1024 prec53 prec53_lt mode_NE none x) as C. fold (nmul none x) in C.
  pose proof key_none as K. rewrite (key_finite none none_fin) in K. rewrite K, Rmult_1_l in C.
  fold (rnd (B2R x)) in C. rewrite <- (key_finite x F), (rnd_key x F), (key_finite x F) in C.
  rewrite Rlt_bool_true in C; [|rewrite <- (key_finite x F); apply (key_finite_lt x F)].
  destruct C as (C1 & C2 & C3). apply B2R_Bsign_inj; auto. rewrite C3; [rewrite (Bsign_pos none) by (rewrite K; lra); apply xorb_false_l|].
  destruct (nmul none x); try reflexivity; discriminate.
Qed.
Lemma ndiv_1 x : ndiv x none = x.
Proof.
  destruct x as [sg|sg| |sg m e H]; try (destruct sg; reflexivity); try reflexivity.
  set (x := B754_finite sg m e H : num). assert (F : nfin x = true) by reflexivity.
  pose proof key_none as K. rewrite (key_finite none none_fin) in K.
  pose proof (Bdiv_correct 53 1024 prec53 prec53_lt mode_NE x none) as C. fold (ndiv x none) in C.
  rewrite K in C. unfold Rdiv in C. rewrite Rinv_1, Rmult_1_r in C. specialize (C R1_neq_R0).
  fold (rnd (B2R x)) in C. rewrite <- (key_finite x F), (rnd_key x F), (key_finite x F) in C.
  rewrite Rlt_bool_true in C; [|rewrite <- (key_finite x F); apply (key_finite_lt x F)].
  destruct C as (C1 & C2 & C3). apply B2R_Bsign_inj; auto. rewrite C3; [rewrite (Bsign_pos none) by (rewrite K; lra); apply xorb_false_r|].
  destruct (ndiv x none); try reflexivity; discriminate.
Qed.

Lemma nmax_le1 a b : nnan a = false -> nnan b = false -> key a <= 1 -> key b <= 1 -> 0 <= key b -> nfin (nmax a b) = true /\ key b <= key (nmax a b) <= 1.
Proof.
  intros A B LA LB PB. pose proof (nmax_nan _ _ A B) as N. pose proof (nmax_key _ _ A B) as K. rewrite K.
  assert (key b <= Rmax (key a) (key b)) by apply Rmax_r. assert (Rmax (key a) (key b) <= 1) by (apply Rmax_lub; auto).
  split; [|split; auto]. apply key_strict_finite; auto. rewrite K. pose proof big_gt1. lra.
Qed.

Lemma ndiv_range a m : nfin a = true -> 0 < key a -> nnan m = false -> key a <= key m ->
  nnan (ndiv a m) = false /\ 0 <= key (ndiv a m) <= 1.
Proof.
  intros Fa A Nm L. split; [apply ndiv_nnan; auto|]. destruct (fin_cases m Nm) as [F|[->| ->]].
  - destruct (@ndiv_fin a m Fa F) as [_ K]; [lra|]. rewrite K. split.
    + apply fl_pos. apply Rmult_le_pos; [lra|]. left. apply Rinv_0_lt_compat. lra.
    + rewrite <- key_none. apply fl_le_key; [apply nfin_nnan, none_fin|]. rewrite key_none.
      apply Rmult_le_reg_r with (key m); [lra|]. unfold Rdiv. rewrite Rmult_assoc, Rinv_l; lra.
  - assert (K : key (ndiv a ninf) = 0) by (destruct a; try discriminate; reflexivity). rewrite K. lra.
  - rewrite key_minf in L. pose proof big_pos. lra.
Qed.

Lemma grad_df_dbl maxgrad minv g : nfin maxgrad = true -> 0 < key maxgrad -> nfin minv = true -> 0 <= key minv <= 1 ->
  let df := grad_df OD maxgrad nzero minv g in nfin df = true /\ key minv <= key df <= 1.
Proof.
  intros F P FM M. cbv zeta. assert (N1 : nnan none = false) by apply nfin_nnan, none_fin. pose proof key_none as K1.
  unfold grad_df. destruct g as [g|]; [|change (t1 OD) with none; split; [exact none_fin|rewrite K1; lra]].
  cbv zeta. change (teq OD nzero (t0 OD)) with (neqb nzero nzero).
  replace (neqb nzero nzero) with true by (symmetry; apply neqb_iff; auto).
  change (tlt OD) with nlt. change (tdiv OD) with ndiv. change (t1 OD) with none.
  change (tmax OD) with (fun a b => nmax a b). cbv beta.
  destruct (nlt maxgrad (amax OD g)) eqn:E.
  - apply nlt_iff in E. destruct E as (_ & Nm & L).
    destruct (ndiv_range maxgrad (amax OD g)) as [A B]; auto; [lra|]. apply nmax_le1; auto; try lra. apply nfin_nnan; auto.
  - apply nmax_le1; auto; try lra. apply nfin_nnan; auto.
Qed.

Lemma row_amax_dbl dmin r : nfin dmin = true -> 0 < key dmin -> nnan (row_amax OD dmin r) = false /\ key dmin <= key (row_amax OD dmin r).
Proof.
  intros F P. unfold row_amax. assert (G : forall m, nnan m = false -> key dmin <= key m ->
    nnan (fold_left (fun m a => tmax OD m (tabs OD a)) r m) = false /\ key dmin <= key (fold_left (fun m a => tmax OD m (tabs OD a)) r m)).
  { induction r as [|a r IH]; intros m N L; cbn [fold_left]; auto. apply IH.
    - unfold tmax. change (tlt OD m (tabs OD a)) with (nlt m (nabs a)). destruct (nlt m (nabs a)) eqn:E; auto.
      apply nlt_iff in E. apply E.
    - unfold tmax. change (tlt OD m (tabs OD a)) with (nlt m (nabs a)). destruct (nlt m (nabs a)) eqn:E; auto.
      apply nlt_iff in E. change (tabs OD a) with (nabs a). lra. }
  apply G; [apply nfin_nnan; auto|lra].
Qed.

Definition good01 (lo : R) (d : num) : Prop := nfin d = true /\ lo <= key d <= 1.
Lemma grad_dc_dbl maxgrad target minv dmin A d : nfin maxgrad = true -> 0 < key maxgrad -> nfin minv = true -> 0 <= key minv <= 1 ->
  nfin dmin = true -> 0 < key dmin -> nfin (ndiv none dmin) = true -> nlt nzero target = false ->
  grad_dc OD maxgrad target minv dmin A = Some d -> Forall (good01 (key minv)) d.
Proof.
  intros F P FM M FD PD RD NT. unfold grad_dc. destruct A as [[|r0 A0]|]; try discriminate. set (A := r0 :: A0). cbv zeta.
  change (tlt OD (t0 OD) target) with (nlt nzero target). rewrite NT. cbn [negb].
  destruct (tlt OD maxgrad (amax OD (map (row_amax OD dmin) A))); [|destruct (tlt OD (t0 OD) minv); cbn [option_map]; intros E; discriminate E].
  assert (N1 : nnan none = false) by apply nfin_nnan, none_fin. pose proof key_none as K1.
  assert (RC : Forall (fun y => nfin y = true /\ 0 <= key y) (recip OD (map (row_amax OD dmin) A))).
  { unfold recip. rewrite Forall_map, Forall_map. apply Forall_forall. intros r _. destruct (row_amax_dbl dmin r FD PD) as [N L].
    change (tdiv OD (t1 OD) (row_amax OD dmin r)) with (ndiv none (row_amax OD dmin r)).
    assert (NN : nnan (ndiv none (row_amax OD dmin r)) = false) by (apply ndiv_nnan; auto; try exact none_fin; lra).
    destruct (fin_cases _ N) as [FR|[E|E]].
    - destruct (@ndiv_fin none (row_amax OD dmin r) none_fin FR) as [_ K]; [lra|].
      destruct (@ndiv_fin none dmin none_fin FD) as [_ K']; [lra|]. rewrite K1 in K, K'.
      assert (I1 : 0 < / key (row_amax OD dmin r)) by (apply Rinv_0_lt_compat; lra).
      assert (I2 : / key (row_amax OD dmin r) <= / key dmin) by (apply Rinv_le_contravar; lra).
      assert (B1 : 0 <= key (ndiv none (row_amax OD dmin r))) by (rewrite K; apply fl_pos; unfold Rdiv; lra).
      assert (B2 : key (ndiv none (row_amax OD dmin r)) <= key (ndiv none dmin)) by (rewrite K, K'; apply fl_le; unfold Rdiv; lra).
      split; auto. apply key_strict_finite; auto. pose proof (key_finite_lt _ RD) as H. apply Rabs_def2 in H. pose proof big_pos. lra.
    - rewrite E. split; [reflexivity|]. replace (key (ndiv none ninf)) with 0 by reflexivity. lra.
    - rewrite E, key_minf in L. pose proof big_pos. lra. }
  assert (VS : Forall (fun y => nnan y = false /\ 0 <= key y) (vscal OD maxgrad (recip OD (map (row_amax OD dmin) A)))).
  { unfold vscal. destruct (teq OD maxgrad (t1 OD)).
    - eapply Forall_impl; [|exact RC]. intros y [H1 H2]. split; auto. apply nfin_nnan; auto.
    - rewrite Forall_map. eapply Forall_impl; [|exact RC]. intros y [H1 H2]. change (tmul OD maxgrad y) with (nmul maxgrad y).
      destruct (@nmul_fin maxgrad y F H1) as [N K]. split; auto. rewrite K. apply fl_pos. apply Rmult_le_pos; lra. }
  assert (MN : Forall (fun y => nnan y = false /\ 0 <= key y <= 1) (map (fun y => tmin OD y (t1 OD)) (vscal OD maxgrad (recip OD (map (row_amax OD dmin) A))))).
  { rewrite Forall_map. eapply Forall_impl; [|exact VS]. intros y [H1 H2]. change (tmin OD y (t1 OD)) with (nmin y none).
    split; [apply nmin_nan; auto|]. rewrite nmin_key, K1 by auto. split; [apply Rmin_glb; lra|apply Rmin_r]. }
  change (tlt OD (t0 OD) minv) with (nlt nzero minv).
  destruct (nlt nzero minv) eqn:EM; cbn [option_map]; intros E; injection E as <-.
  - rewrite Forall_map. eapply Forall_impl; [|exact MN]. intros y [H1 H2]. change (tmax OD y minv) with (nmax y minv).
    apply nmax_le1; auto; try lra. apply nfin_nnan; auto.
  - assert (Z : key minv = 0). { assert (key minv <= key nzero) by (apply nlt_false; auto; apply nfin_nnan; auto). rewrite key_nzero in *. lra. }
    eapply Forall_impl; [|exact MN]. intros y [H1 H2]. split; [|rewrite Z; auto]. apply key_strict_finite; auto. pose proof big_gt1. lra.
Qed.
End Dbl.
