(** Lemmas about the problem translation. *)
From Coq Require Import List Bool Arith ZArith Lia Sorted.
From Verif Require Import VecModel ExpModel ExpSpec ExpProofs AdModel AdSpec.
Import ListNotations.
Set Implicit Arguments.
Local Open Scope nat_scope.

(** * lists *)
Lemma seq_sorted i n : StronglySorted lt (seq i n).
Proof.
  revert i; induction n; intros i; simpl; constructor; auto.
  apply Forall_forall. intros x H. apply in_seq in H. lia.
Qed.
Lemma sorted_filter (f : nat -> bool) l : StronglySorted lt l -> StronglySorted lt (filter f l).
Proof.
  induction 1 as [|x l H IH F]; simpl; [constructor|]. destruct (f x); auto. constructor; auto.
  apply Forall_forall. intros y Hy. apply filter_In in Hy. rewrite Forall_forall in F. apply F. apply Hy.
Qed.
Lemma sorted_nodup l : StronglySorted lt l -> NoDup l.
Proof.
  induction 1 as [|x l H IH F]; constructor; auto. intros I. rewrite Forall_forall in F. specialize (F x I). lia.
Qed.
Lemma enumerates_filter n (f : nat -> bool) : enumerates n (fun i => f i = true) (filter f (seq 0 n)).
Proof.
  split; [apply sorted_filter, seq_sorted|]. intros i. rewrite filter_In, in_seq. intuition lia.
Qed.
Lemma enumerates_iff n P Q l : (forall i, i < n -> (P i <-> Q i)) -> enumerates n P l -> enumerates n Q l.
Proof. intros H [A B]. split; auto. intros i. rewrite B. split; intros [C D]; split; auto; apply H; auto. Qed.
Lemma enumerates_positions n P l : enumerates n P l -> positions n l.
Proof. intros [A B]. split; [apply sorted_nodup; auto|]. intros p H. apply B in H. tauto. Qed.

Lemma skipn_S {A} (a : A) : forall i l l', skipn i l = a :: l' -> skipn (S i) l = l'.
Proof. induction i; intros [|b l] l' H; try discriminate; [injection H as -> ->; reflexivity|]. simpl in H. apply IHi in H. exact H. Qed.

Lemma filter_ext_in' {A} (f g : A -> bool) l : (forall a, In a l -> f a = g a) -> filter f l = filter g l.
Proof. intros H. induction l as [|a l IH]; simpl; auto. rewrite (H a) by (left; auto). rewrite IH; auto. intros; apply H; right; auto. Qed.

Lemma filter_snoc (p : nat -> bool) us i :
  filter (fun k => p (nth k (us ++ [i]) 0)) (seq 0 (length (us ++ [i]))) =
  filter (fun k => p (nth k us 0)) (seq 0 (length us)) ++ (if p i then [length us] else []).
Proof.
  rewrite app_length. simpl length. rewrite Nat.add_1_r, seq_S, filter_app. simpl.
  rewrite app_nth2, Nat.sub_diag by lia. simpl. f_equal.
  apply filter_ext_in'. intros k Hk. apply in_seq in Hk. rewrite app_nth1 by lia. reflexivity.
Qed.

Lemma seqS' i : seq 0 (S i) = seq 0 i ++ [i].
Proof. rewrite seq_S. reflexivity. Qed.


Section Gen.
Context {T : Type} (O : nops T) (minf pinf : T).
Notation at_ := (at_ O).

Section Vars.
Variables (xl xu : list T) (t : treatment).
Hypothesis LEN : length xu = length xl.
Definition fx (i : nat) : bool := teq O (at_ xl i) (at_ xu i).
Definition bad (i : nat) : bool := negb (fx i) && tlt O (at_ xu i) (at_ xl i).
Definition keep (i : nat) : bool := negb (fx i && removing t).
Definition lowb (i : nat) : bool := if fx i then is_relax t else tlt O minf (at_ xl i).
Definition uppb (i : nat) : bool := if fx i then is_relax t else tlt O (at_ xu i) pinf.
Definition mkv (i : nat) : option nat := if fx i && is_relax t then None else Some i.
Definition xinv (i : nat) : xmaps :=
  let us := filter keep (seq 0 i) in
  XM (map mkv us) (filter (fun k => lowb (nth k us 0)) (seq 0 (length us)))
     (filter (fun k => uppb (nth k us 0)) (seq 0 (length us)))
     (filter (fun k => fx k && negb (is_relax t)) (seq 0 i)).

Lemma classify_x_run : forall sl su i, skipn i xl = sl -> skipn i xu = su -> length su = length sl -> i + length sl = length xl ->
  match classify_x O minf pinf t i sl su (xinv i) with
  | inl s => s = xinv (length xl) /\ (forall j, i <= j < length xl -> bad j = false)
  | inr (BadVariable k) => i <= k < length xl /\ bad k = true /\ (forall j, i <= j < k -> bad j = false)
  | inr (BadConstraint _) => False
  end.
Proof.
  induction sl as [|l sl IH]; intros [|u su] i E1 E2 L1 L2; simpl in L1; try lia.
  - simpl. simpl in L2. replace (length xl) with i by lia. split; auto. intros; lia.
  - assert (A1 : at_ xl i = l).
    { unfold AdModel.at_. rewrite <- (firstn_skipn i xl), E1. rewrite app_nth2; rewrite firstn_length_le by lia; try lia. rewrite Nat.sub_diag. reflexivity. }
    assert (A2 : at_ xu i = u).
    { unfold AdModel.at_. rewrite <- (firstn_skipn i xu), E2. rewrite app_nth2; rewrite firstn_length_le by lia; try lia. rewrite Nat.sub_diag. reflexivity. }
    assert (S1 : skipn (S i) xl = sl).
    { eapply skipn_S; eauto. }
    assert (S2 : skipn (S i) xu = su).
    { eapply skipn_S; eauto. }
    simpl in L2.
    assert (STEP : bad i = false ->
      match classify_x O minf pinf t (S i) sl su (xinv (S i)) with
      | inl s => s = xinv (length xl) /\ (forall j, i <= j < length xl -> bad j = false)
      | inr (BadVariable k) => i <= k < length xl /\ bad k = true /\ (forall j, i <= j < k -> bad j = false)
      | inr (BadConstraint _) => False
      end).
    { intros NB. specialize (IH su (S i) S1 S2 ltac:(lia) ltac:(lia)).
      destruct (classify_x O minf pinf t (S i) sl su (xinv (S i))) as [s|[k|k]]; auto.
      - destruct IH as [I1 I2]. split; auto. intros j Hj. destruct (Nat.eq_dec j i); [subst; auto|apply I2; lia].
      - destruct IH as (I1 & I2 & I3). repeat split; try lia; auto. intros j Hj. destruct (Nat.eq_dec j i); [subst; auto|apply I3; lia]. }
    simpl classify_x.
    destruct (teq O l u) eqn:F.
    + assert (FX : fx i = true) by (unfold fx; rewrite A1, A2; auto).
      assert (NB : bad i = false) by (unfold bad; rewrite FX; reflexivity).
      replace (match t with MAKE_PARAMETER | MAKE_PARAMETER_NODUAL => _ | MAKE_CONSTRAINT => _ | RELAX_BOUNDS => _ end) with (xinv (S i)); [exact (STEP NB)|].
      unfold xinv. cbn [x_vars x_lo x_up x_fix]. rewrite seqS', !filter_app. cbn [filter].
      assert (K : keep i = negb (removing t)) by (unfold keep; rewrite FX; reflexivity). rewrite K.
      assert (B1 : lowb i = is_relax t) by (unfold lowb; rewrite FX; reflexivity).
      assert (B2 : uppb i = is_relax t) by (unfold uppb; rewrite FX; reflexivity).
      assert (M : mkv i = if is_relax t then None else Some i) by (unfold mkv; rewrite FX; reflexivity).
      destruct t eqn:Et; cbn [removing is_relax negb andb] in *; rewrite FX; cbn [andb]; rewrite ?app_nil_r; auto;
      rewrite map_app, !filter_snoc, ?map_length, B1, B2; cbn [map]; rewrite M, ?app_nil_r; reflexivity.
    + assert (FX : fx i = false) by (unfold fx; rewrite A1, A2; auto).
      destruct (tlt O u l) eqn:G.
      * repeat split; try lia. unfold bad. rewrite FX, A1, A2, G. reflexivity.
      * assert (NB : bad i = false) by (unfold bad; rewrite FX, A1, A2, G; reflexivity).
        match goal with |- match classify_x _ _ _ _ _ _ _ ?s with _ => _ end => replace s with (xinv (S i)); [exact (STEP NB)|] end.
        unfold xinv. cbn [x_vars x_lo x_up x_fix]. rewrite seqS', !filter_app. cbn [filter].
        assert (K : keep i = true) by (unfold keep; rewrite FX; reflexivity). rewrite K, FX. cbn [andb].
        rewrite map_app, !filter_snoc, map_length, app_nil_r. cbn [map].
        assert (M : mkv i = Some i) by (unfold mkv; rewrite FX; reflexivity). rewrite M.
        assert (B1 : lowb i = tlt O minf l) by (unfold lowb; rewrite FX, A1; reflexivity).
        assert (B2 : uppb i = tlt O u pinf) by (unfold uppb; rewrite FX, A2; reflexivity). rewrite B1, B2.
        destruct (tlt O minf l), (tlt O u pinf); rewrite ?app_nil_r; reflexivity.
Qed.
End Vars.

Section Cons.
Variables (gl gu : list T).
Hypothesis LEN : length gu = length gl.
Definition lowd (i : nat) : bool := tlt O minf (at_ gl i).
Definition uppd (i : nat) : bool := tlt O (at_ gu i) pinf.
Definition ineq (i : nat) : bool := negb (fx gl gu i).
Definition ginv (i : nat) : gmaps :=
  let ds := filter ineq (seq 0 i) in
  GM (filter (fx gl gu) (seq 0 i)) ds (filter (fun k => lowd (nth k ds 0)) (seq 0 (length ds)))
     (filter (fun k => uppd (nth k ds 0)) (seq 0 (length ds))).
Lemma classify_g_run : forall sl su i, skipn i gl = sl -> skipn i gu = su -> length su = length sl -> i + length sl = length gl ->
  match classify_g O minf pinf i sl su (ginv i) with
  | inl s => s = ginv (length gl) /\ (forall j, i <= j < length gl -> bad gl gu j = false)
  | inr (BadConstraint k) => i <= k < length gl /\ bad gl gu k = true /\ (forall j, i <= j < k -> bad gl gu j = false)
  | inr (BadVariable _) => False
  end.
Proof.
  induction sl as [|l sl IH]; intros [|u su] i E1 E2 L1 L2; simpl in L1; try lia.
  - simpl. simpl in L2. replace (length gl) with i by lia. split; auto. intros; lia.
  - assert (A1 : at_ gl i = l).
    { unfold AdModel.at_. rewrite <- (firstn_skipn i gl), E1. rewrite app_nth2; rewrite firstn_length_le by lia; try lia. rewrite Nat.sub_diag. reflexivity. }
    assert (A2 : at_ gu i = u).
    { unfold AdModel.at_. rewrite <- (firstn_skipn i gu), E2. rewrite app_nth2; rewrite firstn_length_le by lia; try lia. rewrite Nat.sub_diag. reflexivity. }
    assert (S1 : skipn (S i) gl = sl) by (eapply skipn_S; eauto).
    assert (S2 : skipn (S i) gu = su) by (eapply skipn_S; eauto).
    simpl in L2.
    assert (STEP : bad gl gu i = false ->
      match classify_g O minf pinf (S i) sl su (ginv (S i)) with
      | inl s => s = ginv (length gl) /\ (forall j, i <= j < length gl -> bad gl gu j = false)
      | inr (BadConstraint k) => i <= k < length gl /\ bad gl gu k = true /\ (forall j, i <= j < k -> bad gl gu j = false)
      | inr (BadVariable _) => False
      end).
    { intros NB. specialize (IH su (S i) S1 S2 ltac:(lia) ltac:(lia)).
      destruct (classify_g O minf pinf (S i) sl su (ginv (S i))) as [s|[k|k]]; auto.
      - destruct IH as [I1 I2]. split; auto. intros j Hj. destruct (Nat.eq_dec j i); [subst; auto|apply I2; lia].
      - destruct IH as (I1 & I2 & I3). repeat split; try lia; auto. intros j Hj. destruct (Nat.eq_dec j i); [subst; auto|apply I3; lia]. }
    simpl classify_g.
    destruct (teq O l u) eqn:F.
    + assert (FX : fx gl gu i = true) by (unfold fx; rewrite A1, A2; auto).
      assert (NB : bad gl gu i = false) by (unfold bad; rewrite FX; reflexivity).
      match goal with |- match classify_g _ _ _ _ _ _ ?s with _ => _ end => replace s with (ginv (S i)); [exact (STEP NB)|] end.
      unfold ginv. cbn [g_c g_d g_lo g_up]. rewrite seqS', !filter_app. cbn [filter].
      assert (K : ineq i = false) by (unfold ineq; rewrite FX; reflexivity). rewrite K, FX, !app_nil_r. reflexivity.
    + assert (FX : fx gl gu i = false) by (unfold fx; rewrite A1, A2; auto).
      destruct (tlt O u l) eqn:G.
      * repeat split; try lia. unfold bad. rewrite FX, A1, A2, G. reflexivity.
      * assert (NB : bad gl gu i = false) by (unfold bad; rewrite FX, A1, A2, G; reflexivity).
        match goal with |- match classify_g _ _ _ _ _ _ ?s with _ => _ end => replace s with (ginv (S i)); [exact (STEP NB)|] end.
        unfold ginv. cbn [g_c g_d g_lo g_up]. rewrite seqS', !filter_app. cbn [filter].
        assert (K : ineq i = true) by (unfold ineq; rewrite FX; reflexivity). rewrite K, FX.
        rewrite !filter_snoc, app_nil_r.
        assert (B1 : lowd i = tlt O minf l) by (unfold lowd; rewrite A1; reflexivity).
        assert (B2 : uppd i = tlt O u pinf) by (unfold uppd; rewrite A2; reflexivity). rewrite B1, B2.
        destruct (tlt O minf l), (tlt O u pinf); rewrite ?app_nil_r; reflexivity.
Qed.
End Cons.

(** * the result of the two passes *)
Lemma classify_once_run t xl xu gl gu : length xu = length xl -> length gu = length gl ->
  match classify_once O minf pinf t xl xu gl gu with
  | inl (sx, sg) => sx = xinv xl xu t (length xl) /\ sg = ginv gl gu (length gl) /\
       (forall j, j < length xl -> bad xl xu j = false) /\ (forall j, j < length gl -> bad gl gu j = false)
  | inr (BadVariable k) => k < length xl /\ bad xl xu k = true /\ (forall j, j < k -> bad xl xu j = false)
  | inr (BadConstraint k) => (forall j, j < length xl -> bad xl xu j = false) /\
       k < length gl /\ bad gl gu k = true /\ (forall j, j < k -> bad gl gu j = false)
  end.
Proof.
  intros L1 L2. unfold classify_once.
  pose proof (@classify_x_run xl xu t L1 xl xu 0 eq_refl eq_refl L1 eq_refl) as X.
  change (xinv xl xu t 0) with (XM [] [] [] []) in X.
  destruct (classify_x O minf pinf t 0 xl xu (XM [] [] [] [])) as [sx|[k|k]].
  - destruct X as [X1 X2].
    pose proof (@classify_g_run gl gu L2 gl gu 0 eq_refl eq_refl L2 eq_refl) as Y.
    change (ginv gl gu 0) with (GM [] [] [] []) in Y.
    destruct (classify_g O minf pinf 0 gl gu (GM [] [] [] [])) as [sg|[k|k]].
    + destruct Y as [Y1 Y2]. repeat split; auto; intros; [apply X2|apply Y2]; lia.
    + destruct Y.
    + destruct Y as (Y1 & Y2 & Y3). repeat split; try lia; auto; intros; [apply X2|apply Y3]; lia.
  - destruct X as (X1 & X2 & X3). repeat split; try lia; auto. intros; apply X3; lia.
  - destruct X.
Qed.

(** * removal of dependent constraints *)
Lemma take_out_spec : forall c deps i, StronglySorted lt deps -> Forall (fun d => i <= d) deps ->
  take_out i c deps = map snd (filter (fun p => negb (existsb (Nat.eqb (fst p)) deps)) (combine (seq i (length c)) c)).
Proof.
  induction c as [|x c IH]; intros deps i S F.
  - destruct deps; reflexivity.
  - destruct deps as [|d ds].
    + cbn [take_out]. cbn [length seq combine]. symmetry.
      clear. assert (E : forall l (n : list nat), length n = length l -> map snd (filter (fun p : nat * nat => negb (existsb (Nat.eqb (fst p)) [])) (combine n l)) = l).
      { induction l as [|a l IHl]; intros [|b n] H; try discriminate; auto. simpl. f_equal. apply IHl. simpl in H. lia. }
      apply (E (x :: c) (i :: seq (S i) (length c))). simpl. rewrite seq_length. reflexivity.
    + inversion S as [|? ? S' FD]; subst. inversion F as [|? ? Hd F']; subst.
      cbn [take_out length seq combine filter fst existsb].
      destruct (i =? d) eqn:E.
      * apply Nat.eqb_eq in E. subst d. cbn [orb negb]. rewrite IH; [|exact S'|eapply Forall_impl; [|exact FD]; simpl; intros; lia].
        f_equal. apply filter_ext_in'. intros [k y] H. apply in_combine_l in H. apply in_seq in H.
        cbn [fst existsb]. replace (k =? i) with false by (symmetry; apply Nat.eqb_neq; lia). reflexivity.
      * apply Nat.eqb_neq in E. cbn [orb].
        assert (G : existsb (Nat.eqb i) ds = false).
        { rewrite Forall_forall in FD. destruct (existsb (Nat.eqb i) ds) eqn:EX; auto. apply existsb_exists in EX. destruct EX as (y & Y1 & Y2).
          apply Nat.eqb_eq in Y2. subst y. specialize (FD i Y1). lia. }
        rewrite G. cbn [negb map snd]. f_equal. rewrite IH; auto.
        constructor; [lia|]. eapply Forall_impl; [|exact FD]. simpl; intros; lia.
Qed.
Lemma combine_app {A B} (a1 a2 : list A) (b1 b2 : list B) : length a1 = length b1 -> combine (a1 ++ a2) (b1 ++ b2) = combine a1 b1 ++ combine a2 b2.
Proof. revert b1; induction a1; intros [|b b1] H; simpl in *; try lia; auto. rewrite IHa1; auto. Qed.
Lemma map_snd_combine {A B} (a : list A) (b : list B) : length a = length b -> map snd (combine a b) = b.
Proof. revert b; induction a; intros [|y b] H; simpl in *; try lia; auto. rewrite IHa; auto. Qed.
Lemma remove_deps_spec c deps : StronglySorted lt deps ->
  remove_deps c deps = map snd (filter (fun p => negb (existsb (Nat.eqb (fst p)) deps)) (combine (seq 0 (length c)) c)).
Proof.
  intros S. destruct deps as [|d ds].
  - cbn [remove_deps]. rewrite <- (take_out_spec c (i := 0) S); auto. destruct c; reflexivity.
  - unfold remove_deps. rewrite take_out_spec; auto.
    2:{ constructor; auto. inversion S as [|? ? S' FD]; subst. eapply Forall_impl; [|exact FD]. simpl; intros; lia. }
    rewrite skipn_length.
    destruct (Nat.le_gt_cases (length c) d) as [H|H].
    + rewrite firstn_all2 by lia. rewrite skipn_all2 by lia. rewrite (proj2 (Nat.sub_0_le _ _)) by lia. cbn [seq combine filter map]. rewrite !app_nil_r.
      assert (E : filter (fun p : nat * nat => negb (existsb (Nat.eqb (fst p)) (d :: ds))) (combine (seq 0 (length c)) c) = combine (seq 0 (length c)) c).
      { rewrite (@filter_ext_in' _ _ (fun _ => true)).
        - clear. induction (combine (seq 0 (length c)) c); simpl; congruence.
        - intros [k y] Hk. apply in_combine_l in Hk. apply in_seq in Hk. cbn [fst].
          destruct (existsb (Nat.eqb k) (d :: ds)) eqn:EX; auto. apply existsb_exists in EX. destruct EX as (z & Z1 & Z2). apply Nat.eqb_eq in Z2. subst z.
          inversion S as [|? ? S' FD]; subst. rewrite Forall_forall in FD. destruct Z1 as [<-|Z1]; [lia|]. specialize (FD k Z1). lia. }
      rewrite E, map_snd_combine; auto. apply seq_length.
    + assert (ES : seq 0 (length c) = seq 0 d ++ seq d (length c - d)) by (pose proof (seq_app d (length c - d) 0) as EA; rewrite Nat.add_0_l in EA; rewrite <- EA; f_equal; lia).
      assert (EC : combine (seq 0 (length c)) c = combine (seq 0 d) (firstn d c) ++ combine (seq d (length c - d)) (skipn d c)).
      { rewrite ES. rewrite <- (firstn_skipn d c) at 2. apply combine_app. rewrite seq_length, firstn_length_le; lia. }
      rewrite EC.
      rewrite filter_app, map_app. f_equal.
      rewrite (@filter_ext_in' _ _ (fun _ => true)).
      * assert (E : forall (l : list (nat * nat)), filter (fun _ => true) l = l) by (induction l; simpl; congruence).
        rewrite E, map_snd_combine; auto. rewrite seq_length, firstn_length_le; lia.
      * intros [k y] Hk. apply in_combine_l in Hk. apply in_seq in Hk. cbn [fst].
        destruct (existsb (Nat.eqb k) (d :: ds)) eqn:EX; auto. apply existsb_exists in EX. destruct EX as (z & Z1 & Z2). apply Nat.eqb_eq in Z2. subst z.
        inversion S as [|? ? S' FD]; subst. rewrite Forall_forall in FD. destruct Z1 as [<-|Z1]; [lia|]. specialize (FD k Z1). lia.
Qed.
Lemma in_combine_seq {A} (d : A) (l : list A) k y i : In (k, y) (combine (seq i (length l)) l) <-> i <= k < i + length l /\ nth (k - i) l d = y.
Proof.
  revert i; induction l as [|a l IH]; intros i; cbn [length seq combine In].
  - split; [tauto|]. lia.
  - rewrite IH. split.
    + intros [E|[E1 E2]]; [injection E as -> ->; rewrite Nat.sub_diag; split; [lia|reflexivity]|]. split; [lia|].
      replace (k - i) with (S (k - S i)) by lia. exact E2.
    + intros [E1 E2]. destruct (Nat.eq_dec k i) as [->|N]; [left; rewrite Nat.sub_diag in E2; simpl in E2; congruence|right].
      split; [lia|]. replace (k - i) with (S (k - S i)) in E2 by lia. exact E2.
Qed.
Lemma remove_deps_in c deps x : StronglySorted lt deps ->
  (In x (remove_deps c deps) <-> exists k, k < length c /\ nth k c 0 = x /\ ~ In k deps).
Proof.
  intros S. rewrite remove_deps_spec by auto. rewrite in_map_iff. split.
  - intros ((k & y) & E & H). cbn in E. subst y. apply filter_In in H. destruct H as [H N]. apply (in_combine_seq 0) in H.
    rewrite Nat.sub_0_r in H. exists k. repeat split; try lia; try tauto. intros I. cbn [fst] in N.
    assert (existsb (Nat.eqb k) deps = true) by (apply existsb_exists; exists k; split; auto; apply Nat.eqb_refl). rewrite H0 in N. discriminate.
  - intros (k & H1 & H2 & H3). exists (k, x). split; auto. apply filter_In. split.
    + apply (in_combine_seq 0). rewrite Nat.sub_0_r. split; auto. lia.
    + cbn [fst]. destruct (existsb (Nat.eqb k) deps) eqn:E; auto. apply existsb_exists in E. destruct E as (z & Z1 & Z2). apply Nat.eqb_eq in Z2. subst; tauto.
Qed.
Lemma remove_deps_sorted c deps : StronglySorted lt deps -> StronglySorted lt c -> StronglySorted lt (remove_deps c deps).
Proof.
  intros S SC. rewrite remove_deps_spec by auto. generalize 0. induction SC as [|x c SC IH F]; intros i; cbn [length seq combine filter map]; [constructor|].
  destruct (negb _); auto. cbn [map snd]. constructor; auto. apply Forall_forall. intros y H. apply in_map_iff in H. destruct H as ((k & z) & E & H).
  cbn in E. subst z. apply filter_In in H. destruct H as [H _]. apply in_combine_r in H. rewrite Forall_forall in F. auto.
Qed.

(** * the stored structure *)
Definition users (xl xu : list T) (t : treatment) : list nat := filter (keep xl xu t) (seq 0 (length xl)).
Definition needs_relax (xl xu gl gu : list T) (t : treatment) : bool :=
  negb (is_relax t) && negb (length (filter (fx xl xu) (seq 0 (length xl))) =? 0)
  && (length (users xl xu t) <? length (filter (fx gl gu) (seq 0 (length gl)))) && negb (length (users xl xu t) =? 0).
Definition final_t xl xu gl gu t := if needs_relax xl xu gl gu t then RELAX_BOUNDS else t.

Lemma classify_run t xl xu gl gu : length xu = length xl -> length gu = length gl ->
  match classify O minf pinf t xl xu gl gu with
  | inl (t', sx, sg) => t' = final_t xl xu gl gu t /\ sx = xinv xl xu t' (length xl) /\ sg = ginv gl gu (length gl) /\
       (forall j, j < length xl -> bad xl xu j = false) /\ (forall j, j < length gl -> bad gl gu j = false)
  | inr (BadVariable k) => k < length xl /\ bad xl xu k = true /\ (forall j, j < k -> bad xl xu j = false)
  | inr (BadConstraint k) => (forall j, j < length xl -> bad xl xu j = false) /\
       k < length gl /\ bad gl gu k = true /\ (forall j, j < k -> bad gl gu j = false)
  end.
Proof.
  intros L1 L2. unfold classify. pose proof (@classify_once_run t xl xu gl gu L1 L2) as H.
  destruct (classify_once O minf pinf t xl xu gl gu) as [[sx sg]|e]; [|exact H].
  destruct H as (H1 & H2 & H3 & H4).
  assert (C : is_relax t || (length (x_fix sx) =? 0) || (length (g_c sg) <=? length (x_vars sx)) || (length (x_vars sx) =? 0) = negb (needs_relax xl xu gl gu t)).
  { subst sx sg. unfold xinv, ginv, needs_relax, users. cbn [x_fix x_vars g_c]. rewrite map_length.
    destruct (is_relax t) eqn:R; [reflexivity|]. cbn [orb negb andb].
    rewrite (@filter_ext_in' _ (fun k => fx xl xu k && true) (fx xl xu)) by (intros; apply andb_true_r).
    rewrite !negb_andb, !negb_involutive. f_equal. f_equal. apply eq_true_iff_eq. rewrite negb_true_iff, Nat.leb_le, Nat.ltb_ge. reflexivity. }
  rewrite C. unfold final_t. destruct (needs_relax xl xu gl gu t) eqn:NR; cbn [negb].
  - pose proof (@classify_once_run RELAX_BOUNDS xl xu gl gu L1 L2) as K.
    destruct (classify_once O minf pinf RELAX_BOUNDS xl xu gl gu) as [[sx' sg']|e].
    + destruct K as (K1 & K2 & K3 & K4). auto.
    + destruct e as [k|k].
      * destruct K as (K1 & K2 & K3). rewrite (H3 k K1) in K2. discriminate.
      * destruct K as (K0 & K1 & K2 & K3). rewrite (H4 k K1) in K2. discriminate.
  - auto.
Qed.

Lemma filter_all {A} (f : A -> bool) l : (forall a, In a l -> f a = true) -> filter f l = l.
Proof. intros H. induction l as [|a l IH]; simpl; auto. rewrite (H a) by (left; auto). f_equal. apply IH. intros; apply H; right; auto. Qed.
Lemma filter_none {A} (f : A -> bool) l : (forall a, In a l -> f a = false) -> filter f l = [].
Proof. intros H. induction l as [|a l IH]; simpl; auto. rewrite (H a) by (left; auto). apply IH. intros; apply H; right; auto. Qed.

Section Spaces.
Variables (t : treatment) (cs : bool) (xl xu gl gu : list T) (deps : list nat) (jac hess : list (nat * nat)) (a : adapter).
Hypothesis LX : length xu = length xl.
Hypothesis LG : length gu = length gl.
Hypothesis SD : StronglySorted lt deps.
Hypothesis A : get_spaces O minf pinf t cs xl xu gl gu deps jac hess = inl a.
Let n := length xl.
Let m := length gl.
Let t' := final_t xl xu gl gu t.
Let us := users xl xu t'.
Let fort p := (fortran cs (fst p), fortran cs (snd p)).

Lemma sp_all : 
  a_n a = n /\ a_m a = m /\ a_t a = t' /\ a_nvar a = length us /\
  a_xlo a = filter (fun k => lowb xl xu t' (nth k us 0)) (seq 0 (length us)) /\
  a_xup a = filter (fun k => uppb xl xu t' (nth k us 0)) (seq 0 (length us)) /\
  a_fix a = filter (fun k => fx xl xu k && negb (is_relax t')) (seq 0 n) /\
  a_c a = remove_deps (filter (fx gl gu) (seq 0 m)) deps /\
  a_d a = filter (ineq gl gu) (seq 0 m) /\
  a_dlo a = filter (fun k => lowd gl (nth k (a_d a) 0)) (seq 0 (length (a_d a))) /\
  a_dup a = filter (fun k => uppd gu (nth k (a_d a) 0)) (seq 0 (length (a_d a))) /\
  (forall j, j < n -> bad xl xu j = false) /\ (forall j, j < m -> bad gl gu j = false).
Proof.
  revert A. unfold get_spaces. pose proof (@classify_run t xl xu gl gu LX LG) as H.
  destruct (classify O minf pinf t xl xu gl gu) as [[[t1 sx] sg]|e]; [|discriminate].
  destruct H as (-> & -> & -> & H4 & H5). intros E. injection E as <-. cbn [a_n a_m a_t a_nvar a_xlo a_xup a_fix a_c a_d a_dlo a_dup].
  unfold xinv, ginv. cbn [x_vars x_lo x_up x_fix g_c g_d g_lo g_up]. rewrite map_length. repeat split; auto.
  destruct (filter (fx gl gu) (seq 0 (length gl))) as [|c0 c] eqn:EC; unfold m; rewrite EC; [|reflexivity].
  cbn [length Nat.ltb Nat.leb]. destruct deps; auto. unfold remove_deps. rewrite firstn_nil, skipn_nil. reflexivity.
Qed.
Lemma sp_vars : a_vars a = if (0 <? length (a_fix a)) && removing t' then Some us else None.
Proof.
  revert A. unfold get_spaces. pose proof (@classify_run t xl xu gl gu LX LG) as H.
  destruct (classify O minf pinf t xl xu gl gu) as [[[t1 sx] sg]|e]; [|discriminate].
  destruct H as (-> & -> & -> & H4 & H5). intros E. injection E as <-. cbn [a_vars a_fix].
  unfold xinv. cbn [x_vars x_fix]. fold t'. destruct ((0 <? _) && removing t') eqn:B; auto. f_equal.
  unfold us, users. fold n. rewrite map_map. rewrite <- (map_id (filter (keep xl xu t') (seq 0 n))) at 2. apply map_ext. intros k.
  unfold mkv. apply andb_prop in B. destruct B as [_ B]. destruct t'; try discriminate B; rewrite andb_false_r; reflexivity.
Qed.
Lemma sp_jac : let colpos := option_map (compressed_pos n) (a_vars a) in
  a_jc a = select (compressed_pos m (a_c a)) colpos 0 (map fort jac) /\
  a_jd a = select (compressed_pos m (a_d a)) colpos 0 (map fort jac) /\
  a_jx a = (if removing t' then [] else map (fun k => (length (a_c a) + k + 1, nth k (a_fix a) 0 + 1)) (seq 0 (length (a_fix a)))) /\
  a_jfix a = (match colpos with Some cp => if is_parameter t' then select_fixed cp 0 (map fort jac) else [] | None => [] end) /\
  a_h a = select_h colpos 0 (map fort hess).
Proof.
  revert A. unfold get_spaces. pose proof (@classify_run t xl xu gl gu LX LG) as H.
  destruct (classify O minf pinf t xl xu gl gu) as [[[t1 sx] sg]|e]; [|discriminate].
  destruct H as (-> & -> & -> & H4 & H5). intros E. injection E as <-. cbn [a_vars a_fix a_jc a_jd a_jx a_jfix a_h a_c a_d]. repeat split; auto.
Qed.
(** without removal every variable is kept *)
Lemma sp_all_kept : a_vars a = None -> us = seq 0 n.
Proof.
  rewrite sp_vars. intros H. unfold us, users. fold n. apply filter_all. intros k Hk. unfold keep.
  destruct (removing t') eqn:R; [|rewrite andb_false_r; reflexivity].
  destruct (fx xl xu k) eqn:F; auto. exfalso.
  assert (I : In k (a_fix a)).
  { destruct sp_all as (_ & _ & _ & _ & _ & _ & -> & _). apply filter_In. split; auto. rewrite F. destruct t'; try discriminate R; reflexivity. }
  destruct (a_fix a); [destruct I|]. cbn [length Nat.ltb Nat.leb andb] in H. discriminate.
Qed.
Lemma sp_full_index k : k < length us -> full_index a k = nth k us 0.
Proof.
  intros H. unfold full_index. destruct (a_vars a) eqn:E.
  - rewrite sp_vars in E. destruct (_ && _); [|discriminate]. injection E as <-. reflexivity.
  - apply sp_all_kept in E. rewrite E in *. rewrite seq_length in H. rewrite seq_nth; auto.
Qed.
Lemma us_enum : enumerates n (fun i => ~ (tight O xl xu i /\ removing (a_t a) = true)) us.
Proof.
  destruct sp_all as (_ & _ & -> & _). unfold us, users. fold n.
  eapply enumerates_iff; [|apply enumerates_filter]. intros i Hi. unfold keep, tight, fx, lower, upper, AdModel.at_.
  rewrite negb_true_iff, andb_false_iff.
  destruct (teq O (nth i xl (t0 O)) (nth i xu (t0 O))), (removing t'); intuition congruence.
Qed.
End Spaces.
End Gen.
