(** The compact representation of the BFGS matrix: sigma I + V V' - U U' with
    U = Z C for any C with C C' the inverse of M. *)
From Coq Require Import List Bool Arith Reals Lia Lra Psatz FunctionalExtensionality Classical.
From Flocq Require Import Core.Raux.
From Verif Require Import LmModel LmSpec LmProofs.
Import ListNotations.
Local Open Scope R_scope.

Section Compact.
  Variable n : nat.
  Variable sigma : R.
  Variables s y : nat -> vec.
  Definition cD j := dot n (s j) (y j).
  Definition cv j : vec := fun r => 1 / sqrt (cD j) * y j r.
  Definition cLt (i j : nat) : R := if (j <? i)%nat then dot n (s i) (y j) * (1 / sqrt (cD j)) else 0.
  Definition cz l : vec := fun r => sumn l (fun i => cLt l i * cv i r) + sigma * s l r.
  Fixpoint cB (k : nat) : vec -> vec :=
    match k with O => fun x i => sigma * x i | S k => bfgs_step n (cB k) (s k, y k) end.
  Definition cdel k := dot n (s k) (cB k (s k)).
  Definition cu j : vec := fun r => 1 / sqrt (cdel j) * cB j (s j) r.
  Definition cJ (i j : nat) : R := if (j <=? i)%nat then dot n (cu j) (s i) else 0.
  Definition cM (k i j : nat) : R := sumn k (fun l => cLt i l * cLt j l) + sigma * dot n (s i) (s j).

  Hypothesis Hsig : 0 < sigma.
  Variable k : nat.
  Hypothesis HD : forall j, (j < k)%nat -> 0 < cD j.

  Lemma cB_good j : (j <= k)%nat -> lin n (cB j) /\ symmetric n (cB j) /\ positive_definite n (cB j).
  Proof.
    induction j as [|j IH]; intros Hj.
    - exact (bfgs_matrix_good n sigma [] Hsig (Forall_nil _)).
    - destruct (IH ltac:(lia)) as (H1 & H2 & H3). cbn [cB]. split; [|split].
      + apply bfgs_step_lin; assumption.
      + apply bfgs_step_sym; assumption.
      + apply bfgs_step_pd; auto; apply (HD j); lia.
  Qed.
  Lemma cdel_pos j : (j < k)%nat -> 0 < cdel j.
  Proof.
    intros Hj. apply cB_good; [lia|]. apply NNPP. intros C. pose proof (HD j Hj) as H. unfold cD in H.
    assert (dot n (s j) (y j) = 0); [|lra]. apply sumn_zero. intros i Hi.
    destruct (Req_dec (s j i) 0) as [->|E]; [ring|]. exfalso. apply C. exists i. auto.
  Qed.
  Lemma inv_sqrt_sqr a : 0 < a -> 1 / sqrt a * (1 / sqrt a) = 1 / a.
  Proof. intros Ha. pose proof (sqrt_lt_R0 a Ha). rewrite <- (sqrt_sqrt a) at 3 by lra. field. lra. Qed.
  Lemma cB_expand j : (j <= k)%nat -> forall x r, (r < n)%nat ->
    cB j x r = sigma * x r + sumn j (fun i => dot n (cv i) x * cv i r) - sumn j (fun i => dot n (cu i) x * cu i r).
  Proof.
    induction j as [|j IH]; intros Hj x r Hr; [cbn; ring|].
    cbn [cB sumn bfgs_step]. rewrite IH by (auto; lia).
    replace (dot n (cv j) x) with (1 / sqrt (cD j) * dot n (y j) x)
      by (unfold cv; rewrite dot_scal_l; reflexivity).
    replace (dot n (cu j) x) with (1 / sqrt (cdel j) * dot n (cB j (s j)) x)
      by (unfold cu; rewrite dot_scal_l; reflexivity).
    replace (1 / sqrt (cD j) * dot n (y j) x * cv j r) with (dot n (y j) x / dot n (s j) (y j) * y j r).
    2:{ unfold cv. transitivity (dot n (y j) x * (1 / sqrt (cD j) * (1 / sqrt (cD j))) * y j r); [|ring].
        rewrite inv_sqrt_sqr by (apply HD; lia). unfold cD, Rdiv. ring. }
    replace (1 / sqrt (cdel j) * dot n (cB j (s j)) x * cu j r) with (dot n (cB j (s j)) x / cdel j * cB j (s j) r).
    2:{ unfold cu. transitivity (dot n (cB j (s j)) x * (1 / sqrt (cdel j) * (1 / sqrt (cdel j))) * cB j (s j) r); [|ring].
        rewrite inv_sqrt_sqr by (apply cdel_pos; lia). unfold Rdiv. ring. }
    unfold cdel. ring.
  Qed.
  Lemma cv_dot j i : dot n (cv j) (s i) = dot n (s i) (y j) * (1 / sqrt (cD j)).
  Proof. unfold cv. rewrite dot_scal_l, (dot_comm n (y j)). ring. Qed.
  (** z_i = sum_{j<=i} J_ij u_j *)
  Lemma cz_cu i : (i < k)%nat -> forall r, (r < n)%nat -> cz i r = sumn (Datatypes.S i) (fun j => cJ i j * cu j r).
  Proof.
    intros Hi r Hr. cbn [sumn].
    assert (E : cJ i i * cu i r = cB i (s i) r).
    { unfold cJ. rewrite Nat.leb_refl. unfold cu. rewrite dot_scal_l, (dot_comm n _ (s i)). fold (cdel i).
      pose proof (cdel_pos i Hi) as P.
      transitivity (cdel i * (1 / sqrt (cdel i) * (1 / sqrt (cdel i))) * cB i (s i) r); [ring|]. rewrite inv_sqrt_sqr by assumption. field. lra. }
    rewrite E, cB_expand by (auto; lia). unfold cz.
    rewrite (sumn_ext i (fun j => cJ i j * cu j r) (fun j => dot n (cu j) (s i) * cu j r)).
    2:{ intros j Hj. unfold cJ. destruct (j <=? i)%nat eqn:El; [reflexivity|]. apply Nat.leb_gt in El. lia. }
    rewrite (sumn_ext i (fun j => cLt i j * cv j r) (fun j => dot n (cv j) (s i) * cv j r)).
    2:{ intros j Hj. unfold cLt. destruct (j <? i)%nat eqn:El; [rewrite cv_dot; reflexivity|]. apply Nat.ltb_ge in El. lia. }
    ring.
  Qed.
  Lemma sumn_trunc (m K : nat) f : (m <= K)%nat -> (forall i, (m <= i < K)%nat -> f i = 0) -> sumn K f = sumn m f.
  Proof.
    intros H Hf. induction K as [|K IH]; [replace m with O by lia; reflexivity|].
    destruct (Nat.eq_dec m (Datatypes.S K)) as [->|]; [reflexivity|]. cbn. rewrite IH, (Hf K); [ring|lia|lia|intros; apply Hf; lia].
  Qed.
  Lemma cz_cu_k i : (i < k)%nat -> forall r, (r < n)%nat -> cz i r = sumn k (fun j => cJ i j * cu j r).
  Proof.
    intros Hi r Hr. rewrite (sumn_trunc (Datatypes.S i) k); [|lia|intros j Hj; unfold cJ; destruct (j <=? i)%nat eqn:E; [apply Nat.leb_le in E; lia|ring]].
    apply cz_cu; assumption.
  Qed.
  Lemma cM_JJ_le l i : (l <= i)%nat -> (i < k)%nat -> cM k l i = sumn k (fun j => cJ l j * cJ i j).
  Proof.
    intros Hl Hi.
    transitivity (dot n (cz l) (s i)).
    - unfold cM. rewrite (sumn_trunc l k); [|lia|intros j Hj; unfold cLt; destruct (j <? l)%nat eqn:E; [apply Nat.ltb_lt in E; lia|ring]].
      unfold cz. rewrite dot_plus_l, dot_scal_l, dot_sum_l.
      f_equal. apply sumn_ext. intros j Hj.
      rewrite cv_dot. unfold cLt at 2.
      destruct (j <? i)%nat eqn:E; [reflexivity|]. apply Nat.ltb_ge in E. lia.
    - rewrite (dot_ext n (cz l) (s i) (fun r => sumn k (fun j => cJ l j * cu j r)) (s i)) by (auto; intros; apply cz_cu_k; auto; lia).
      rewrite dot_sum_l. apply sumn_ext. intros j Hj. unfold cJ at 1 2.
      destruct (j <=? l)%nat eqn:E; [|ring]. apply Nat.leb_le in E. unfold cJ.
      replace (j <=? i)%nat with true by (symmetry; apply Nat.leb_le; lia). reflexivity.
  Qed.
  Lemma cM_sym i j : cM k i j = cM k j i.
  Proof. unfold cM. rewrite (dot_comm n (s i)). f_equal. apply sumn_ext. intros; ring. Qed.
  Lemma cM_JJ l i : (l < k)%nat -> (i < k)%nat -> cM k l i = sumn k (fun j => cJ l j * cJ i j).
  Proof.
    intros Hl Hi. destruct (Nat.le_ge_cases l i); [apply cM_JJ_le; assumption|].
    rewrite cM_sym, cM_JJ_le by assumption. apply sumn_ext. intros; ring.
  Qed.
  Lemma cJ_diag i : (i < k)%nat -> 0 < cJ i i.
  Proof.
    intros Hi. unfold cJ. rewrite Nat.leb_refl. unfold cu. rewrite dot_scal_l, (dot_comm n _ (s i)). fold (cdel i).
    pose proof (cdel_pos i Hi) as P. pose proof (sqrt_lt_R0 _ P). apply Rmult_lt_0_compat; auto.
    apply Rmult_lt_0_compat; [lra|]. apply Rinv_0_lt_compat. assumption.
  Qed.
  Lemma cJ_upper i j : (i < j)%nat -> cJ i j = 0.
  Proof. intros H. unfold cJ. destruct (j <=? i)%nat eqn:E; [apply Nat.leb_le in E; lia|reflexivity]. Qed.
  (** J is injective, J' is injective *)
  Lemma cJ_inj (a : vec) : (forall i, (i < k)%nat -> sumn k (fun j => cJ i j * a j) = 0) -> forall i, (i < k)%nat -> a i = 0.
  Proof.
    intros H i. induction i as [i IH] using lt_wf_ind. intros Hi. specialize (H i Hi).
    rewrite (sumn_trunc (Datatypes.S i) k) in H; [|lia|intros j Hj; rewrite cJ_upper by lia; ring].
    cbn [sumn] in H. rewrite sumn_zero in H by (intros j Hj; rewrite (IH j Hj) by lia; ring).
    pose proof (cJ_diag i Hi). nra.
  Qed.
  Lemma cJT_inj (a : vec) : forall m, (m <= k)%nat -> (forall j, (j < m)%nat -> sumn m (fun i => cJ i j * a i) = 0) -> forall i, (i < m)%nat -> a i = 0.
  Proof.
    induction m as [|m IH]; intros Hm H i Hi; [lia|].
    assert (Z : a m = 0).
    { pose proof (H m ltac:(lia)) as E. cbn [sumn] in E. rewrite sumn_zero in E by (intros j Hj; rewrite cJ_upper by lia; ring).
      pose proof (cJ_diag m ltac:(lia)). nra. }
    destruct (Nat.eq_dec i m) as [->|]; [assumption|]. apply IH; try lia.
    intros j Hj. pose proof (H j ltac:(lia)) as E. cbn [sumn] in E. rewrite Z in E. lra.
  Qed.
  Lemma quad_sum (A : nat -> nat -> R) (a : vec) m :
    sumn m (fun i => sumn m (fun j => a i * sumn m (fun l => A i l * A j l) * a j)) = sumn m (fun l => sumn m (fun i => A i l * a i) * sumn m (fun i => A i l * a i)).
  Proof.
    rewrite (sumn_ext m (fun i => sumn m _) (fun i => sumn m (fun l => A i l * a i * sumn m (fun j => A j l * a j)))).
    2:{ intros i _. rewrite (sumn_ext m _ (fun j => sumn m (fun l => A i l * a i * (A j l * a j)))).
        2:{ intros j _. rewrite <- sumn_mult, <- sumn_mult_r. apply sumn_ext. intros; ring. }
        rewrite sumn_swap. apply sumn_ext. intros l _. rewrite sumn_mult. reflexivity. }
    rewrite sumn_swap. apply sumn_ext. intros l _. rewrite sumn_mult_r. reflexivity.
  Qed.
  Lemma cM_pd : pd_matrix k (cM k).
  Proof.
    split; [intros; apply cM_sym|]. intros a Ha.
    rewrite (sumn_ext k _ (fun i => sumn k (fun j => a i * sumn k (fun l => cJ i l * cJ j l) * a j))).
    2:{ intros i Hi. apply sumn_ext. intros j Hj. rewrite cM_JJ by assumption. reflexivity. }
    rewrite quad_sum.
    assert (P : 0 <= sumn k (fun l => sumn k (fun i => cJ i l * a i) * sumn k (fun i => cJ i l * a i))) by (apply sumn_nonneg; intros; nra).
    destruct P as [P|P]; [assumption|]. exfalso. destruct Ha as (i & Hi & E). apply E. apply (cJT_inj a k); auto.
    intros j Hj. symmetry in P.
    assert (Q : sumn k (fun i => cJ i j * a i) * sumn k (fun i => cJ i j * a i) = 0); [|nra].
    apply (sumn_nonneg_zero k (fun l => sumn k (fun i => cJ i l * a i) * sumn k (fun i => cJ i l * a i))); auto. intros; nra.
  Qed.

  (** any C with C C' the inverse of M *)
  Variable C : nat -> nat -> R.
  Hypothesis HMP : forall i j, (i < k)%nat -> (j < k)%nat ->
    sumn k (fun l => cM k i l * sumn k (fun p => C l p * C j p)) = delta i j.
  Definition cP i j := sumn k (fun p => C i p * C j p).
  Definition cU j : vec := fun r => sumn k (fun l => C l j * cz l r).
  (** J' P J = I *)
  Lemma cJPJ a b : (a < k)%nat -> (b < k)%nat -> sumn k (fun l => sumn k (fun m => cJ l a * cP l m * cJ m b)) = delta a b.
  Proof.
    intros Ha Hb.
    apply Rminus_diag_uniq.
    apply (cJ_inj (fun a => sumn k (fun l => sumn k (fun m => cJ l a * cP l m * cJ m b)) - delta a b)); auto.
    intros i Hi.
    rewrite (sumn_ext k _ (fun j => cJ i j * sumn k (fun l => sumn k (fun m => cJ l j * cP l m * cJ m b)) - cJ i j * delta j b)) by (intros; ring).
    rewrite sumn_minus, sumn_delta by assumption.
    apply Rminus_diag_eq.
    transitivity (sumn k (fun m => delta i m * cJ m b)).
    2:{ rewrite (sumn_ext k _ (fun m => delta m i * cJ m b)) by (intros; rewrite delta_sym; reflexivity). rewrite sumn_delta' by assumption. reflexivity. }
    rewrite (sumn_ext k _ (fun j => sumn k (fun l => sumn k (fun m => cJ i j * (cJ l j * cP l m * cJ m b))))).
    2:{ intros j _. rewrite <- sumn_mult. apply sumn_ext. intros l _. rewrite <- sumn_mult. reflexivity. }
    rewrite sumn_swap.
    rewrite (sumn_ext k _ (fun l => sumn k (fun m => cM k i l * cP l m * cJ m b))).
    2:{ intros l Hl. rewrite sumn_swap. apply sumn_ext. intros m Hm. rewrite cM_JJ by assumption. rewrite Rmult_assoc, <- sumn_mult_r. apply sumn_ext. intros; ring. }
    rewrite sumn_swap. apply sumn_ext. intros m Hm. rewrite <- (HMP i m Hi Hm), <- sumn_mult_r. apply sumn_ext. intros l Hl.
    unfold cP. reflexivity.
  Qed.
  Lemma bilin4 (A B2 : nat -> nat -> R) (f g : nat -> R) :
    (* sum_j (sum_l C_lj f_l)(sum_m C_mj g_m) = sum_l sum_m P_lm f_l g_m *)
    sumn k (fun j => sumn k (fun l => C l j * f l) * sumn k (fun m => C m j * g m)) = sumn k (fun l => sumn k (fun m => cP l m * (f l * g m))).
  Proof.
    rewrite (sumn_ext k _ (fun j => sumn k (fun l => sumn k (fun m => C l j * C m j * (f l * g m))))).
    2:{ intros j _. rewrite <- sumn_mult_r. apply sumn_ext. intros l _. rewrite <- sumn_mult. apply sumn_ext. intros; ring. }
    rewrite sumn_swap. apply sumn_ext. intros l _. rewrite sumn_swap. apply sumn_ext. intros m _. unfold cP. rewrite <- sumn_mult_r. reflexivity.
  Qed.
  Lemma cUU (x : vec) r : (r < n)%nat -> sumn k (fun j => dot n (cU j) x * cU j r) = sumn k (fun j => dot n (cu j) x * cu j r).
  Proof.
    intros Hr.
    assert (E1 : forall j, dot n (cU j) x = sumn k (fun l => C l j * dot n (cz l) x)).
    { intros j. unfold cU. rewrite dot_sum_l. reflexivity. }
    assert (E2 : forall l, (l < k)%nat -> dot n (cz l) x = sumn k (fun j => cJ l j * dot n (cu j) x)).
    { intros l Hl. rewrite (dot_ext n (cz l) x (fun r => sumn k (fun j => cJ l j * cu j r)) x) by (auto; intros; apply cz_cu_k; auto).
      rewrite dot_sum_l. reflexivity. }
    rewrite (sumn_ext k _ (fun j => sumn k (fun l => C l j * dot n (cz l) x) * sumn k (fun m => C m j * cz m r))) by (intros; rewrite E1; reflexivity).
    rewrite (bilin4 C C (fun l => dot n (cz l) x) (fun m => cz m r)).
    rewrite (sumn_ext k _ (fun l => sumn k (fun m => sumn k (fun a => sumn k (fun b => cJ l a * cP l m * cJ m b * (dot n (cu a) x * cu b r)))))).
    2:{ intros l Hl. apply sumn_ext. intros m Hm. rewrite E2, cz_cu_k by assumption.
        rewrite <- sumn_mult_r, <- sumn_mult. apply sumn_ext. intros a _. rewrite <- !sumn_mult. apply sumn_ext. intros; ring. }
    rewrite (sumn_ext k _ (fun l => sumn k (fun a => sumn k (fun m => sumn k (fun b => cJ l a * cP l m * cJ m b * (dot n (cu a) x * cu b r)))))) by (intros; rewrite sumn_swap; reflexivity).
    rewrite sumn_swap. apply sumn_ext. intros a Ha.
    rewrite (sumn_ext k _ (fun l => sumn k (fun b => sumn k (fun m => cJ l a * cP l m * cJ m b * (dot n (cu a) x * cu b r))))) by (intros; rewrite sumn_swap; reflexivity).
    rewrite sumn_swap.
    rewrite (sumn_ext k _ (fun b => delta b a * (dot n (cu a) x * cu b r))).
    2:{ intros b Hb. rewrite (delta_sym b a), <- (cJPJ a b Ha Hb), <- sumn_mult_r. apply sumn_ext. intros l _. rewrite <- sumn_mult_r. reflexivity. }
    rewrite sumn_delta' by assumption. reflexivity.
  Qed.
  Theorem compact_bfgs (x : vec) r : (r < n)%nat ->
    cB k x r = sigma * x r + sumn k (fun i => dot n (cv i) x * cv i r) - sumn k (fun i => dot n (cU i) x * cU i r).
  Proof. intros Hr. rewrite cB_expand by auto. rewrite cUU by assumption. reflexivity. Qed.
End Compact.
