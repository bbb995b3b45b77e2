(** The SR1 update: secant equation. *)
From Coq Require Import List Bool Arith Reals Lia Lra Psatz FunctionalExtensionality Classical.
From Flocq Require Import Core.Raux.
From Verif Require Import LmModel LmSpec LmProofs LmCompact LmRun.
Import ListNotations.
Local Open Scope R_scope.

Lemma sumn_split a b f : sumn (a + b) f = sumn a f + sumn b (fun j => f (j + a)%nat).
Proof.
  induction b as [|b IH]; [rewrite Nat.add_0_r; cbn; ring|].
  rewrite Nat.add_succ_r. cbn [sumn]. rewrite IH, (Nat.add_comm b a). ring.
Qed.
Lemma count_neg k E : (forall i j, (i <= j)%nat -> (j < k)%nat -> E i <= E j) ->
  (length (filter (fun i => Rlt_bool (E i) 0) (seq 0 k)) <= k)%nat /\
  forall j, (j < k)%nat -> (E j < 0 <-> (j < length (filter (fun i => Rlt_bool (E i) 0) (seq 0 k)))%nat).
Proof.
  induction k as [|k IH]; intros H; [split; [auto|intros; lia]|].
  destruct (IH (fun i j Hij Hj => H i j Hij ltac:(lia))) as [I1 I2].
  rewrite seq_S, filter_app, app_length. cbn [filter Nat.add].
  destruct (Rlt_bool_spec (E k) 0) as [Hk|Hk]; cbn [length].
  - assert (Al : length (filter (fun i => Rlt_bool (E i) 0) (seq 0 k)) = k).
    { destruct k as [|k']; [reflexivity|]. assert (E k' < 0) as Hk' by (pose proof (H k' (Datatypes.S k') ltac:(lia) ltac:(lia)); lra).
      apply (I2 k' ltac:(lia)) in Hk'. lia. }
    split; [lia|]. intros j Hj. rewrite Al. split; [lia|]. intros _. destruct (Nat.eq_dec j k) as [->|]; [assumption|].
    pose proof (H j k ltac:(lia) ltac:(lia)). lra.
  - split; [lia|]. intros j Hj. rewrite Nat.add_0_r. destruct (Nat.eq_dec j k) as [->|]; [|apply I2; lia].
    split; [lra|]. intros. lia.
Qed.
Lemma split_spec k Z E Q Qm Qp : (0 < k)%nat -> eig_ok k Z E Q -> split_eigenvalues k E Q = Some (Qm, Qp) ->
  exists nneg, (nneg <= k)%nat /\ Qm = map (fun j => fun i => Q i j / sqrt (- E j)) (seq 0 nneg) /\
    Qp = map (fun j => fun i => Q i (j + nneg)%nat / sqrt (E (j + nneg)%nat)) (seq 0 (k - nneg)) /\
    (forall j, (j < nneg)%nat -> E j < 0) /\ (forall j, (nneg <= j)%nat -> (j < k)%nat -> 0 < E j).
Proof.
  intros Hk [_ HE]. unfold split_eigenvalues. destruct (count_neg k E HE) as [C1 C2].
  set (nneg := length (filter (fun i => Rlt_bool (E i) 0) (seq 0 k))) in *.
  destruct (Req_bool_spec (Rmax (Rabs (E 0%nat)) (Rabs (E (k - 1)%nat))) 0) as [|Hm]; [discriminate|].
  set (emax := Rmax _ _) in *. assert (He : 0 < emax).
  { assert (0 <= emax); [|lra]. unfold emax. eapply Rle_trans; [apply Rabs_pos|apply Rmax_l]. }
  match goal with |- context [Rlt_bool (?e / emax) _] => set (emin := e) end.
  destruct (Rlt_bool_spec (emin / emax) (1 / 1000000000000)) as [|Hr]; [discriminate|]. intros X. injection X as <- <-.
  exists nneg. split; [assumption|]. split; [reflexivity|]. split; [reflexivity|].
  split. { intros j Hj. apply C2; lia. }
  intros j Hj Hjk.
  assert (Hmin : 0 < emin). { assert (0 < emin / emax) by lra. replace emin with (emin / emax * emax) by (field; lra). apply Rmult_lt_0_compat; assumption. }
  assert (Hn : 0 < E nneg).
  { unfold emin in Hmin. destruct (nneg =? 0)%nat eqn:E0; [apply Nat.eqb_eq in E0; rewrite E0; assumption|].
    replace (nneg =? k)%nat with false in Hmin by (symmetry; apply Nat.eqb_neq; lia).
    eapply Rlt_le_trans; [exact Hmin|apply Rmin_r]. }
  pose proof (HE nneg j Hj Hjk). lra.
Qed.

(** the data describe [h ++ [(s, y)]]; the new matrix satisfies the secant equation *)
Lemma sr1_secant n h s y d E Q Qm Qp : dinv n (h ++ [(s, y)]) d ->
  let k := d_mem d in
  eig_ok k (symlow (sr1_Z k d)) E Q -> split_eigenvalues k E Q = Some (Qm, Qp) ->
  forall r, lr_mult n (LR (d_sigma d) (sr1_cols d Qp) (sr1_cols d Qm)) s r = y r.
Proof.
  intros Hd k HE HQ r.
  assert (Ek : k = Datatypes.S (length h)) by (unfold k; rewrite (dv_mem _ _ _ Hd), app_length; cbn; lia).
  assert (Hk : length (h ++ [(s, y)]) = k) by (unfold k; rewrite (dv_mem _ _ _ Hd); reflexivity).
  destruct (split_spec k _ E Q Qm Qp ltac:(lia) HE HQ) as (nneg & N1 & -> & -> & N2 & N3).
  destruct HE as [HE _].
  set (sig := d_sigma d).
  set (Vt := fun j r => - sig * col (d_S d) j r + col (d_Y d) j r).
  set (m := length h). assert (Hm : (m < k)%nat) by lia.
  assert (ES : col (d_S d) m = s) by (rewrite (dv_S _ _ _ Hd), map_app; unfold m; rewrite <- (map_length fst h); apply col_app_r).
  assert (EY : col (d_Y d) m = y) by (rewrite (dv_Y _ _ _ Hd), map_app; unfold m; rewrite <- (map_length snd h); apply col_app_r).
  assert (LY : length (d_Y d) = k) by (rewrite (dv_Y _ _ _ Hd), map_length; exact Hk).
  (* column m of Z *)
  assert (HZ : forall j, (j < k)%nat -> dot n (Vt j) s = symlow (sr1_Z k d) m j).
  { intros j Hj. unfold Vt. rewrite dot_plus_l, dot_scal_l. unfold symlow. replace (j <=? m)%nat with true by (symmetry; apply Nat.leb_le; lia).
    unfold sr1_Z. rewrite <- Hk. rewrite (dv_SS _ _ _ Hd m j) by lia. rewrite <- (dv_S _ _ _ Hd), ES, (dot_comm n s). fold sig.
    f_equal. destruct (m =? j)%nat eqn:Ej.
    - apply Nat.eqb_eq in Ej. subst j. rewrite (dv_D _ _ _ Hd), nth_map_D by lia.
      unfold cD, hS, hY. rewrite <- (dv_S _ _ _ Hd), <- (dv_Y _ _ _ Hd), ES, EY. apply dot_comm.
    - apply Nat.eqb_neq in Ej. rewrite (dv_L _ _ _ Hd m j) by lia. replace (j <? m)%nat with true by (symmetry; apply Nat.ltb_lt; lia).
      rewrite <- (dv_S _ _ _ Hd), <- (dv_Y _ _ _ Hd), ES. apply dot_comm. }
  (* Vt q_j . s = Q m j * E j *)
  set (c := fun j r => sumn k (fun l => Q l j * Vt l r)).
  assert (Hc : forall j, (j < k)%nat -> dot n (c j) s = Q m j * E j).
  { intros j Hj. unfold c. rewrite dot_sum_l. rewrite <- (proj1 (HE m j Hm Hj)). apply sumn_ext. intros l Hl. rewrite HZ by assumption. ring. }
  assert (Hcol : forall (a : nat -> R) j nq, (j < nq)%nat -> forall (q : nat -> nat) r,
     col (sr1_cols d (map (fun j i => Q i (q j) / a j) (seq 0 nq))) j r = 1 / a j * c (q j) r).
  { intros a j nq Hj q r'. unfold sr1_cols. rewrite map_map. rewrite col_map_seq by assumption.
    rewrite LY. unfold c. rewrite <- sumn_mult. apply sumn_ext. intros l _. fold sig. unfold Vt, Rdiv. ring. }
  unfold lr_mult. cbn [w_diag w_V w_U]. unfold sr1_cols at 1 4. rewrite !map_length, !seq_length.
  assert (EV : sumn (k - nneg) (fun j => dot n (col (sr1_cols d (map (fun j0 i => Q i (j0 + nneg)%nat / sqrt (E (j0 + nneg)%nat)) (seq 0 (k - nneg)))) j) s
        * col (sr1_cols d (map (fun j0 i => Q i (j0 + nneg)%nat / sqrt (E (j0 + nneg)%nat)) (seq 0 (k - nneg)))) j r)
      = sumn (k - nneg) (fun j => Q m (j + nneg)%nat * c (j + nneg)%nat r)).
  { apply sumn_ext. intros j Hj. pose proof (N3 (j + nneg)%nat ltac:(lia) ltac:(lia)) as P. pose proof (sqrt_lt_R0 _ P) as PS.
    rewrite (Hcol (fun j => sqrt (E (j + nneg)%nat)) j (k - nneg)%nat Hj (fun j => (j + nneg)%nat) r).
    rewrite (dot_ext n _ s (fun r => 1 / sqrt (E (j + nneg)%nat) * c (j + nneg)%nat r) s) by (auto; intros; apply (Hcol (fun j => sqrt (E (j + nneg)%nat)) j (k - nneg)%nat Hj (fun j => (j + nneg)%nat))).
    rewrite dot_scal_l, Hc by lia.
    transitivity (1 / sqrt (E (j + nneg)%nat) * (1 / sqrt (E (j + nneg)%nat)) * E (j + nneg)%nat * Q m (j + nneg)%nat * c (j + nneg)%nat r); [ring|].
    rewrite inv_sqrt_sqr by assumption. field. lra. }
  assert (EU : sumn nneg (fun j => dot n (col (sr1_cols d (map (fun j0 i => Q i j0 / sqrt (- E j0)) (seq 0 nneg))) j) s
        * col (sr1_cols d (map (fun j0 i => Q i j0 / sqrt (- E j0)) (seq 0 nneg))) j r)
      = - sumn nneg (fun j => Q m j * c j r)).
  { transitivity (sumn nneg (fun j => -1 * (Q m j * c j r))); [|rewrite sumn_mult; ring].
    apply sumn_ext. intros j Hj. pose proof (N2 j ltac:(lia)) as P. assert (P' : 0 < - E j) by lra.
    rewrite (Hcol (fun j => sqrt (- E j)) j nneg Hj (fun j => j) r).
    rewrite (dot_ext n _ s (fun r => 1 / sqrt (- E j) * c j r) s) by (auto; intros; apply (Hcol (fun j => sqrt (- E j)) j nneg Hj (fun j => j))).
    rewrite dot_scal_l, Hc by lia.
    transitivity (1 / sqrt (- E j) * (1 / sqrt (- E j)) * E j * Q m j * c j r); [ring|].
    rewrite inv_sqrt_sqr by assumption. field. lra. }
  match goal with |- _ + ?a - ?b = _ => transitivity (sig * s r + sumn (k - nneg) (fun j => Q m (j + nneg)%nat * c (j + nneg)%nat r) - - sumn nneg (fun j => Q m j * c j r)) end.
  { f_equal; [f_equal|]; [exact EV|exact EU]. }
  assert (ET : sumn k (fun j => Q m j * c j r) = Vt m r).
  { unfold c. rewrite (sumn_ext k _ (fun j => sumn k (fun l => Vt l r * (Q l j * Q m j)))).
    2:{ intros j _. rewrite <- sumn_mult. apply sumn_ext. intros; ring. }
    rewrite sumn_swap. rewrite (sumn_ext k _ (fun l => Vt l r * delta l m)).
    2:{ intros l Hl. rewrite sumn_mult, (proj2 (HE l m Hl Hm)). reflexivity. }
    apply (sumn_delta k (fun l => Vt l r)). assumption. }
  replace k with (nneg + (k - nneg))%nat in ET by lia. rewrite sumn_split in ET.
  replace (nneg + (k - nneg) - nneg)%nat with (k - nneg)%nat in ET by lia.
  unfold Vt in ET. rewrite ES, EY in ET. lra.
Qed.
