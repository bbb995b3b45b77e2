(** The internal data describe the history of pairs. *)
From Coq Require Import List Bool Arith Reals Lia Lra Psatz FunctionalExtensionality Classical.
From Flocq Require Import Core.Raux.
From Verif Require Import LmModel LmSpec LmProofs LmCompact.
Import ListNotations.
Local Open Scope R_scope.

Lemma writes_nin l : forall a k, (forall p, In p l -> fst p <> k) -> writes l a k = a k.
Proof.
  induction l as [|p l IH]; intros a k H; [reflexivity|].
  cbn. unfold writes in IH. rewrite IH by (intros q Hq; apply H; right; assumption).
  destruct (k =? fst p)%nat eqn:E; [|reflexivity]. apply Nat.eqb_eq in E. exfalso. apply (H p (or_introl eq_refl)). auto.
Qed.
Lemma writes_val l : forall a k v, (exists p, In p l /\ fst p = k) -> (forall p, In p l -> fst p = k -> snd p = v) -> writes l a k = v.
Proof.
  induction l as [|p l IH]; intros a k v [q [Hq Eq]] H; [destruct Hq|].
  destruct (classic (exists p, In p l /\ fst p = k)) as [Hl|Hl].
  - apply (IH _ k v Hl). intros r Hr. apply H. right. assumption.
  - change (writes (p :: l) a) with (writes l (fun i => if (i =? fst p)%nat then snd p else a i)).
    rewrite writes_nin. 2:{ intros r Hr Er. apply Hl. exists r. auto. }
    destruct Hq as [->|Hq]; [|exfalso; apply Hl; exists q; auto].
    rewrite <- Eq, Nat.eqb_refl. apply H; [left; reflexivity|assumption].
Qed.
Lemma idx_inj (K i j i' j' : nat) : (i < K)%nat -> (i' < K)%nat -> (i + j * K = i' + j' * K)%nat -> i = i' /\ j = j'.
Proof.
  intros H1 H2 E. assert (j = j'). { destruct (lt_eq_lt_dec j j') as [[|]|]; auto; exfalso; nia. }
  subst. split; lia.
Qed.

Definition hS (h : list (vec * vec)) i := col (map fst h) i.
Definition hY (h : list (vec * vec)) i := col (map snd h) i.
Definition hdot n (p : vec * vec) := dot n (fst p) (snd p).
Definition Linv n (k : nat) (Sm Ym : list vec) (L : arr) := forall i j, (i < k)%nat -> (j < k)%nat ->
  at_ k L i j = if (j <? i)%nat then dot n (col Sm i) (col Ym j) else 0.
Definition SSinv n (k : nat) (Sm : list vec) (A : arr) := forall i j, (j <= i)%nat -> (i < k)%nat ->
  at_ k A i j = dot n (col Sm i) (col Sm j).
Lemma col_app_l V v i : (i < length V)%nat -> col (V ++ [v]) i = col V i.
Proof. intros H. unfold col. apply app_nth1. assumption. Qed.
Lemma col_app_r V v : col (V ++ [v]) (length V) = v.
Proof. unfold col. rewrite app_nth2, Nat.sub_diag by lia. reflexivity. Qed.
Lemma col_tl V i : col (tl V) i = col V (i + 1).
Proof. unfold col. rewrite Nat.add_1_r. destruct V as [|v V]; [destruct i; reflexivity|reflexivity]. Qed.

(** membership in the list of writes *)
Ltac writes_in :=
  repeat match goal with
  | H : In _ (_ ++ _) |- _ => apply in_app_or in H; destruct H as [H|H]
  | H : In _ (flat_map _ _) |- _ => apply in_flat_map in H; destruct H as (? & ? & H)
  | H : In _ (map _ _) |- _ => apply in_map_iff in H; destruct H as (? & <- & H)
  | H : In _ (seq _ _) |- _ => apply in_seq in H
  end; cbn [fst snd] in *.

Lemma augment_L_inv n ndim V Sm Ym s y fresh : length Sm = ndim -> length Ym = ndim -> Linv n ndim Sm Ym V ->
  Linv n (ndim + 1) (Sm ++ [s]) (Ym ++ [y]) (augment_L n ndim V (Sm ++ [s]) (Ym ++ [y]) fresh).
Proof.
  intros HS HY HV i j Hi Hj. unfold at_, augment_L.
  destruct (Nat.eq_dec j ndim) as [Ej|Ej]; [|destruct (Nat.eq_dec i ndim) as [Ei|Ei]].
  - subst j. replace (ndim <? i)%nat with false by (symmetry; apply Nat.ltb_ge; lia). apply writes_val.
    + exists ((i + ndim * (ndim + 1))%nat, 0). split; [|reflexivity]. apply in_or_app. right. apply in_or_app. right.
      apply in_map_iff. exists i. split; [reflexivity|]. apply in_seq. lia.
    + intros p Hp E. writes_in; try reflexivity; apply idx_inj in E; try lia.
  - subst i. replace (j <? ndim)%nat with true by (symmetry; apply Nat.ltb_lt; lia). apply writes_val.
    + eexists. split. { apply in_or_app. right. apply in_or_app. left. apply in_map_iff. exists j. split; [reflexivity|]. apply in_seq. lia. }
      reflexivity.
    + intros p Hp E. writes_in; apply idx_inj in E; try lia. destruct E as [_ ->]. reflexivity.
  - rewrite (col_app_l Sm s i), (col_app_l Ym y j) by lia. rewrite <- (HV i j) by lia. apply writes_val.
    + eexists. split. { apply in_or_app. left. apply in_flat_map. exists j. split; [apply in_seq; lia|]. apply in_map_iff. exists i. split; [reflexivity|]. apply in_seq. lia. }
      reflexivity.
    + intros p Hp E. writes_in; apply idx_inj in E; try lia. destruct E as [-> ->]. reflexivity.
Qed.
Lemma shift_L_inv n ndim V Sm Ym s y fresh : length Sm = ndim -> length Ym = ndim -> (0 < ndim)%nat -> Linv n ndim Sm Ym V ->
  Linv n ndim (tl Sm ++ [s]) (tl Ym ++ [y]) (shift_L n ndim V (tl Sm ++ [s]) (tl Ym ++ [y]) fresh).
Proof.
  intros HS HY H0 HV i j Hi Hj. unfold at_, shift_L.
  assert (LS : length (tl Sm) = (ndim - 1)%nat) by (destruct Sm; cbn in *; lia).
  assert (LY : length (tl Ym) = (ndim - 1)%nat) by (destruct Ym; cbn in *; lia).
  destruct (Nat.eq_dec j (ndim - 1)) as [Ej|Ej]; [|destruct (Nat.eq_dec i (ndim - 1)) as [Ei|Ei]].
  - subst j. replace (ndim - 1 <? i)%nat with false by (symmetry; apply Nat.ltb_ge; lia). apply writes_val.
    + exists ((i + ndim * (ndim - 1))%nat, 0). split; [|cbn; lia]. apply in_or_app. right. apply in_or_app. right.
      apply in_map_iff. exists i. split; [reflexivity|]. apply in_seq. lia.
    + intros p Hp E. writes_in; try reflexivity; apply idx_inj in E; try lia.
  - subst i. replace (j <? ndim - 1)%nat with true by (symmetry; apply Nat.ltb_lt; lia). apply writes_val.
    + eexists. split. { apply in_or_app. right. apply in_or_app. left. apply in_map_iff. exists j. split; [reflexivity|]. apply in_seq. lia. }
      reflexivity.
    + intros p Hp E. writes_in; [apply idx_inj in E; lia| |]; [|exfalso; rewrite (Nat.mul_comm ndim) in E; apply idx_inj in E; lia].
      apply idx_inj in E; try lia. destruct E as [_ ->]. reflexivity.
  - rewrite (col_app_l (tl Sm) s i), (col_app_l (tl Ym) y j), !(col_tl Sm i), !(col_tl Ym j) by lia.
    replace (j <? i)%nat with (j + 1 <? i + 1)%nat by (destruct (j <? i)%nat eqn:E; [apply Nat.ltb_lt in E; apply Nat.ltb_lt; lia|apply Nat.ltb_ge in E; apply Nat.ltb_ge; lia]).
    rewrite <- (HV (i + 1)%nat (j + 1)%nat) by lia. apply writes_val.
    + eexists. split. { apply in_or_app. left. apply in_flat_map. exists j. split; [apply in_seq; lia|]. apply in_map_iff. exists i. split; [reflexivity|]. apply in_seq. lia. }
      reflexivity.
    + intros p Hp E. writes_in; [| |exfalso; rewrite (Nat.mul_comm ndim) in E; apply idx_inj in E; lia]; apply idx_inj in E; try lia. destruct E as [-> ->]. reflexivity.
Qed.
Lemma augment_SS_inv n ndim V Sm s fresh : length Sm = ndim -> SSinv n ndim Sm V ->
  SSinv n (ndim + 1) (Sm ++ [s]) (augment_SS n ndim V (Sm ++ [s]) fresh).
Proof.
  intros HS HV i j Hj Hi. unfold at_, augment_SS.
  destruct (Nat.eq_dec i ndim) as [Ei|Ei].
  - subst i. apply writes_val.
    + eexists. split. { apply in_or_app. right. apply in_map_iff. exists j. split; [reflexivity|]. apply in_seq. lia. }
      reflexivity.
    + intros p Hp E. writes_in; apply idx_inj in E; try lia. destruct E as [_ ->]. reflexivity.
  - rewrite (col_app_l Sm s i), (col_app_l Sm s j) by lia. rewrite <- (HV i j) by lia. apply writes_val.
    + eexists. split. { apply in_or_app. left. apply in_flat_map. exists j. split; [apply in_seq; lia|]. apply in_map_iff. exists i. split; [reflexivity|]. apply in_seq. lia. }
      reflexivity.
    + intros p Hp E. writes_in; apply idx_inj in E; try lia. destruct E as [-> ->]. reflexivity.
Qed.
Lemma shift_SS_inv n ndim V Sm s fresh : length Sm = ndim -> (0 < ndim)%nat -> SSinv n ndim Sm V ->
  SSinv n ndim (tl Sm ++ [s]) (shift_SS n ndim V (tl Sm ++ [s]) fresh).
Proof.
  intros HS H0 HV i j Hj Hi. unfold at_, shift_SS.
  assert (LS : length (tl Sm) = (ndim - 1)%nat) by (destruct Sm; cbn in *; lia).
  destruct (Nat.eq_dec i (ndim - 1)) as [Ei|Ei].
  - subst i. apply writes_val.
    + eexists. split. { apply in_or_app. right. apply in_map_iff. exists j. split; [reflexivity|]. apply in_seq. lia. }
      reflexivity.
    + intros p Hp E. writes_in; apply idx_inj in E; try lia. destruct E as [_ ->]. reflexivity.
  - rewrite (col_app_l (tl Sm) s i), (col_app_l (tl Sm) s j), !(col_tl Sm i), !(col_tl Sm j) by lia. rewrite <- (HV (i + 1)%nat (j + 1)%nat) by lia. apply writes_val.
    + eexists. split. { apply in_or_app. left. apply in_flat_map. exists j. split; [apply in_seq; lia|]. apply in_map_iff. exists i. split; [reflexivity|]. apply in_seq. lia. }
      reflexivity.
    + intros p Hp E. writes_in; apply idx_inj in E; try lia. destruct E as [-> ->]. reflexivity.
Qed.

(** the data describe the history [h] *)
Record dinv (n : nat) (h : list (vec * vec)) (d : data) : Prop := {
  dv_mem : d_mem d = length h; dv_S : d_S d = map fst h; dv_Y : d_Y d = map snd h; dv_D : d_D d = map (hdot n) h;
  dv_L : Linv n (length h) (map fst h) (map snd h) (d_L d); dv_SS : SSinv n (length h) (map fst h) (d_SS d) }.
Lemma last_n_short {A} m (l : list A) : (length l <= m)%nat -> last_n m l = l.
Proof. intros H. unfold last_n. replace (length l - m)%nat with O by lia. reflexivity. Qed.
Lemma last_n_full {A} m (l : list A) x : length l = m -> (0 < m)%nat -> last_n m (l ++ [x]) = tl l ++ [x].
Proof.
  intros H H0. unfold last_n. rewrite app_length. cbn. replace (length l + 1 - m)%nat with 1%nat by lia.
  destruct l as [|a l]; cbn in *; [lia|reflexivity].
Qed.
Lemma last_n_length {A} m (l : list A) : (length (last_n m l) <= m)%nat.
Proof. unfold last_n. rewrite skipn_length. lia. Qed.
Lemma map_tl {A B} (f : A -> B) l : map f (tl l) = tl (map f l).
Proof. destruct l; reflexivity. Qed.

Lemma update_data_inv n m fresh s y d h : dinv n h d -> (length h <= m)%nat -> (0 < m)%nat ->
  dinv n (last_n m (h ++ [(s, y)])) (snd (update_data n m fresh s y d)) /\
  fst (update_data n m fresh s y d) = (length h <? m)%nat /\
  d_sigma (snd (update_data n m fresh s y d)) = d_sigma d /\
  d_V (snd (update_data n m fresh s y d)) = d_V d /\ d_U (snd (update_data n m fresh s y d)) = d_U d.
Proof.
  intros [E1 E2 E3 E4 E5 E6] Hh Hm. unfold update_data.
  replace (m =? 0)%nat with false by (symmetry; apply Nat.eqb_neq; lia). rewrite E1.
  destruct (length h <? m)%nat eqn:E.
  - apply Nat.ltb_lt in E. cbn [fst snd d_sigma d_V d_U]. split; [|repeat split].
    rewrite last_n_short by (rewrite app_length; cbn; lia).
    split; cbn [d_mem d_S d_Y d_D d_L d_SS].
    + rewrite app_length. reflexivity.
    + rewrite E2, map_app. reflexivity.
    + rewrite E3, map_app. reflexivity.
    + rewrite E4, map_app. reflexivity.
    + rewrite E2, E3, !map_app, app_length, map_length. cbn [map length fst snd]. apply augment_L_inv; rewrite ?map_length; auto.
    + rewrite E2, !map_app, app_length, map_length. cbn [map length fst snd]. apply augment_SS_inv; rewrite ?map_length; auto.
  - apply Nat.ltb_ge in E. cbn [fst snd d_sigma d_V d_U]. split; [|repeat split].
    rewrite last_n_full by lia.
    assert (Lh : length (tl h ++ [(s, y)]) = length h) by (rewrite app_length; destruct h; cbn in *; lia).
    split; cbn [d_mem d_S d_Y d_D d_L d_SS].
    + lia.
    + rewrite E2, map_app, map_tl. reflexivity.
    + rewrite E3, map_app, map_tl. reflexivity.
    + rewrite E4, map_app, map_tl. reflexivity.
    + rewrite Lh, E2, E3, !map_app, map_length, !map_tl. cbn [map fst snd]. apply shift_L_inv; rewrite ?map_length; auto; lia.
    + rewrite Lh, E2, !map_app, map_length, !map_tl. cbn [map fst snd]. apply shift_SS_inv; rewrite ?map_length; auto; lia.
Qed.

(** ** the matrix of the compact representation *)
Definition vcol n (p : vec * vec) : vec := fun r => 1 / sqrt (dot n (fst p) (snd p)) * snd p r.
Lemma hS_nth h j : hS h j = fst (nth j h (vzero, vzero)).
Proof. exact (map_nth fst h (vzero, vzero) j). Qed.
Lemma hY_nth h j : hY h j = snd (nth j h (vzero, vzero)).
Proof. exact (map_nth snd h (vzero, vzero) j). Qed.
Lemma nth_map_D n h j : (j < length h)%nat -> nth j (map (hdot n) h) 0 = cD n (hS h) (hY h) j.
Proof.
  intros Hj. unfold cD. rewrite (nth_indep _ 0 (hdot n (vzero, vzero))) by (rewrite map_length; assumption).
  rewrite map_nth, hS_nth, hY_nth. reflexivity.
Qed.
Lemma cB_firstn n sigma h j : (j <= length h)%nat -> cB n sigma (hS h) (hY h) j = bfgs_matrix n sigma (firstn j h).
Proof.
  induction j as [|j IH]; intros Hj; [reflexivity|].
  cbn [cB]. rewrite IH by lia.
  assert (E : firstn (Datatypes.S j) h = firstn j h ++ [(hS h j, hY h j)]).
  { clear IH. revert j Hj. induction h as [|p h IHh]; intros j Hj; [cbn in Hj; lia|]. destruct j as [|j].
    - cbn. unfold hS, hY, col. cbn. destruct p; reflexivity.
    - change (firstn (Datatypes.S (Datatypes.S j)) (p :: h)) with (p :: firstn (Datatypes.S j) h).
      rewrite IHh by (cbn in Hj; lia). reflexivity. }
  rewrite E, bfgs_matrix_snoc. reflexivity.
Qed.
Lemma good_D n h j : good n h -> (j < length h)%nat -> 0 < cD n (hS h) (hY h) j.
Proof.
  intros Hg Hj. rewrite <- nth_map_D by assumption. rewrite (nth_indep _ 0 (hdot n (vzero, vzero))) by (rewrite map_length; assumption).
  rewrite map_nth. unfold good in Hg. rewrite Forall_forall in Hg. apply Hg. apply nth_In. assumption.
Qed.
Lemma pd_matrix_ext k A B : (forall i j, (i < k)%nat -> (j < k)%nat -> A i j = B i j) -> pd_matrix k A -> pd_matrix k B.
Proof.
  intros E [H1 H2]. split.
  - intros i j Hi Hj. rewrite <- !E by assumption. auto.
  - intros a Ha. rewrite (sumn_ext k _ (fun i => sumn k (fun j => a i * A i j * a j))).
    + auto.
    + intros i Hi. apply sumn_ext. intros j Hj. rewrite E by assumption. reflexivity.
Qed.
Lemma ltilde_eq n h d i j : dinv n h d -> (i < length h)%nat -> (j < length h)%nat ->
  ltilde (length h) d i j = cLt n (hS h) (hY h) i j.
Proof.
  intros H Hi Hj. unfold ltilde. rewrite (dv_L _ _ _ H i j Hi Hj), (dv_D _ _ _ H), nth_map_D by assumption.
  unfold cLt, hS, hY. destruct (j <? i)%nat; [reflexivity|ring].
Qed.
Lemma bfgs_M_eq n h d i j : dinv n h d -> (j <= i)%nat -> (i < length h)%nat ->
  bfgs_M (length h) d i j = cM n (d_sigma d) (hS h) (hY h) (length h) i j.
Proof.
  intros H Hj Hi. unfold bfgs_M, cM. rewrite (dv_SS _ _ _ H i j Hj Hi). f_equal.
  apply sumn_ext. intros l Hl. rewrite !(ltilde_eq n) by (auto; lia). reflexivity.
Qed.
Lemma symlow_M_eq n h d i j : dinv n h d -> (i < length h)%nat -> (j < length h)%nat ->
  symlow (bfgs_M (length h) d) i j = cM n (d_sigma d) (hS h) (hY h) (length h) i j.
Proof.
  intros H Hi Hj. unfold symlow. destruct (j <=? i)%nat eqn:E.
  - apply bfgs_M_eq; auto. apply Nat.leb_le. assumption.
  - apply Nat.leb_gt in E. rewrite (bfgs_M_eq n h d j i) by (auto; lia). apply cM_sym.
Qed.
Lemma symlow_sym A i j : symlow A i j = symlow A j i.
Proof.
  unfold symlow. destruct (j <=? i)%nat eqn:E1, (i <=? j)%nat eqn:E2; try reflexivity.
  - apply Nat.leb_le in E1, E2. replace j with i by lia. reflexivity.
  - apply Nat.leb_gt in E1, E2. lia.
Qed.
Lemma col_map_seq (f : nat -> vec) k j : (j < k)%nat -> col (map f (seq 0 k)) j = f j.
Proof.
  intros Hj. unfold col. rewrite (nth_indep _ vzero (f O)) by (rewrite map_length, seq_length; assumption).
  rewrite map_nth, seq_nth by assumption. reflexivity.
Qed.
Lemma col_vcol n h j : (j < length h)%nat -> col (map (vcol n) h) j = cv n (hS h) (hY h) j.
Proof.
  intros Hj. unfold col. rewrite (nth_indep _ vzero (vcol n (vzero, vzero))) by (rewrite map_length; assumption).
  rewrite map_nth. unfold vcol, cv, cD. rewrite hS_nth, hY_nth. reflexivity.
Qed.

Lemma bfgs_U_matrix o n h d : lapack_ok o -> dinv n h d -> good n h -> 0 < d_sigma d -> d_V d = map (vcol n) h ->
  exists U, bfgs_U o d = Some U /\ length U = length h /\
    forall x r, (r < n)%nat -> lr_mult n (LR (d_sigma d) (d_V d) U) x r = bfgs_matrix n (d_sigma d) h x r.
Proof.
  intros HL Hd Hg Hs HV. set (k := length h).
  assert (HD : forall j, (j < k)%nat -> 0 < cD n (hS h) (hY h) j) by (intros; apply good_D; assumption).
  unfold bfgs_U. rewrite (dv_mem _ _ _ Hd). fold k.
  destruct (HL k (symlow (bfgs_M k d))) as [HJ Hpd].
  { intros i j _ _. apply symlow_sym. }
  destruct (o_chol o k (symlow (bfgs_M k d))) as [J|] eqn:EJ.
  2:{ exfalso. apply Hpd; [|reflexivity]. apply (pd_matrix_ext k (cM n (d_sigma d) (hS h) (hY h) k)).
      - intros i j Hi Hj. symmetry. apply symlow_M_eq; assumption.
      - apply cM_pd; assumption. }
  specialize (HJ J eq_refl). set (C := o_inv o k J) in *.
  eexists. split; [reflexivity|]. split; [rewrite map_length, seq_length; reflexivity|].
  assert (HMP : forall i j, (i < k)%nat -> (j < k)%nat ->
    sumn k (fun l => cM n (d_sigma d) (hS h) (hY h) k i l * sumn k (fun p => C l p * C j p)) = delta i j).
  { intros i j Hi Hj.
    (* M P = J (J' C) C' = J C' = I *)
    rewrite (sumn_ext k _ (fun l => sumn k (fun q => J i q * J l q) * sumn k (fun p => C l p * C j p))).
    2:{ intros l Hl. rewrite <- symlow_M_eq by assumption. fold k. rewrite (proj1 (HJ i l Hi Hl)). reflexivity. }
    rewrite (sumn_ext k _ (fun l => sumn k (fun q => sumn k (fun p => J i q * C j p * (J l q * C l p))))).
    2:{ intros l _. rewrite <- sumn_mult_r. apply sumn_ext. intros q _. rewrite <- sumn_mult. apply sumn_ext. intros; ring. }
    rewrite sumn_swap.
    rewrite (sumn_ext k _ (fun q => sumn k (fun p => J i q * C j p * delta q p))).
    2:{ intros q Hq. rewrite sumn_swap. apply sumn_ext. intros p Hp. rewrite sumn_mult. f_equal.
        apply (proj1 (proj2 (HJ q p Hq Hp))). }
    rewrite (sumn_ext k _ (fun q => J i q * C j q)).
    2:{ intros q Hq. rewrite (sumn_ext k _ (fun p => delta p q * (J i q * C j p))) by (intros; rewrite delta_sym; ring).
        rewrite sumn_delta' by assumption. reflexivity. }
    rewrite delta_sym, <- (proj2 (proj2 (HJ j i Hj Hi))). apply sumn_ext. intros; unfold C; ring. }
  intros x r Hr.
  assert (EB : cB n (d_sigma d) (hS h) (hY h) k = bfgs_matrix n (d_sigma d) h).
  { rewrite cB_firstn by auto. unfold k. rewrite firstn_all. reflexivity. }
  rewrite <- EB.
  rewrite (compact_bfgs n (d_sigma d) (hS h) (hY h) Hs k HD C HMP) by assumption.
  unfold lr_mult. cbn [w_diag w_V w_U]. rewrite HV, !map_length, seq_length. rewrite (dv_S _ _ _ Hd), map_length. fold k.
  f_equal; [f_equal|].
  - apply sumn_ext. intros j Hj. rewrite col_vcol by assumption. reflexivity.
  - apply sumn_ext. intros j Hj. rewrite col_map_seq by assumption.
    assert (EU : forall r, sumn k (fun i => col (map (vcol n) h) i r * sumn k (fun l => ltilde k d l i * C l j)) +
        d_sigma d * sumn k (fun i => col (map fst h) i r * C i j) = cU n (d_sigma d) (hS h) (hY h) k C j r).
    { intros r'. unfold cU, cz.
      rewrite (sumn_ext k (fun l => C l j * _) (fun l => C l j * sumn k (fun i => cLt n (hS h) (hY h) l i * cv n (hS h) (hY h) i r') + d_sigma d * (col (map fst h) l r' * C l j))).
      2:{ intros l Hl. rewrite (sumn_trunc l k); [unfold hS; ring|lia|]. intros i Hi. unfold cLt. destruct (i <? l)%nat eqn:E; [apply Nat.ltb_lt in E; lia|ring]. }
      rewrite sumn_plus, sumn_mult. f_equal.
      rewrite (sumn_ext k _ (fun i => sumn k (fun l => C l j * (cLt n (hS h) (hY h) l i * cv n (hS h) (hY h) i r')))).
      2:{ intros i Hi. rewrite col_vcol by assumption. rewrite <- sumn_mult. apply sumn_ext. intros l Hl. unfold k. rewrite (ltilde_eq n) by assumption. ring. }
      rewrite sumn_swap. apply sumn_ext. intros l Hl. rewrite sumn_mult. reflexivity. }
    rewrite EU. f_equal. apply sumn_ext. intros i Hi. rewrite EU. reflexivity.
Qed.

(** ** one update *)
Lemma project_sigma_clamp o x : project_sigma o x = clamp (o_sigma_min o) (o_sigma_max o) x.
Proof.
  unfold project_sigma, clamp. destruct (Rlt_bool_spec x (o_sigma_min o)) as [H1|H1]; cbn [orb]; [reflexivity|].
  destruct (Rlt_bool_spec (o_sigma_max o) x) as [H2|H2]; [reflexivity|].
  rewrite Rmin_right, Rmax_left by lra. reflexivity.
Qed.
Lemma sigma0_formula o n p : dot n (fst p) (snd p) <> 0 -> sigma0 o n (dot n (fst p) (snd p)) (fst p) (snd p) = formula_sigma o n p.
Proof.
  destruct p as [s y]. cbn [fst snd]. intros H. unfold sigma0, formula_sigma. rewrite !nrm2_sqr.
  destruct (o_init o); try reflexivity. f_equal.
  destruct (Req_dec (dot n s s) 0) as [E|E].
  - exfalso. apply H. apply sumn_zero. intros i Hi. rewrite (dot_self_zero n s E i Hi). ring.
  - field. auto.
Qed.
Lemma y_new_pair last it : (s_new last it, y_new last it) = pair_of last it.
Proof.
  unfold pair_of, s_new, y_new, grad_lagrangian. f_equal. apply functional_extensionality. intros i. ring.
Qed.
Lemma usable_good o n p : usable o n p -> 0 < o_eps o -> 0 < dot n (fst p) (snd p).
Proof.
  intros [_ H] He. eapply Rle_lt_trans; [|exact H].
  apply Rmult_le_pos; [apply Rmult_le_pos|]; try apply sqrt_pos; apply nrm2_nonneg.
Qed.
Record sinv (o : options) (n : nat) (it : iter) (h : list (vec * vec)) (sigma : R) (k : nat) (st : state) : Prop := {
  sv_last : st_last st = Some it; sv_skip : st_skipped st = k; sv_data : dinv n h (st_data st); sv_good : good n h;
  sv_len : (length h <= o_max_history o)%nat; sv_sigma : d_sigma (st_data st) = sigma; sv_pos : 0 < sigma;
  sv_V : d_V (st_data st) = map (vcol n) h; sv_U : o_max_history o = 0%nat -> d_U (st_data st) = [];
  sv_W : exists W, st_W st = Some W /\ forall x r, (r < n)%nat -> lr_mult n W x r = bfgs_matrix n sigma h x r }.
Lemma reset_inv o n it backup : options_ok o ->
  sinv o n it [] (o_init_val o) 0 (State (nothing (o_init_val o) (o_fresh o)) backup (Some it) 0 (Some (setW (nothing (o_init_val o) (o_fresh o))))).
Proof.
  intros (H1 & _). split; cbn; auto; try lia.
  - split; cbn; auto; intros i j; lia.
  - constructor.
  - eexists. split; [reflexivity|]. intros x r Hr. unfold lr_mult. cbn. ring.
Qed.
Lemma bfgs_inv o n h d s y : lapack_ok o -> options_ok o -> (0 < dot n s y) -> skip_bfgs o n s y = false ->
  dinv n h d -> good n h -> (length h <= o_max_history o)%nat -> d_V d = map (vcol n) h -> (o_max_history o = 0%nat -> d_U d = []) ->
  let h' := last_n (o_max_history o) (h ++ [(s, y)]) in
  let sigma' := clamp (o_sigma_min o) (o_sigma_max o) (formula_sigma o n (s, y)) in
  exists d', bfgs o n s y d = (false, d') /\ dinv n h' d' /\ good n h' /\ d_sigma d' = sigma' /\ 0 < sigma' /\
    d_V d' = map (vcol n) h' /\ (o_max_history o = 0%nat -> d_U d' = []) /\
    forall x r, (r < n)%nat -> lr_mult n (setW d') x r = bfgs_matrix n sigma' h' x r.
Proof.
  intros HL (Ho1 & Ho2 & Ho3 & Ho4) Hsy Hskip Hd Hg Hlen HV HU h' sigma'.
  unfold bfgs. rewrite Hskip.
  assert (Hsp : 0 < sigma'). { unfold sigma', clamp. eapply Rlt_le_trans; [exact Ho2|apply Rmax_r]. }
  assert (Es : project_sigma o (sigma0 o n (dot n s y) s y) = sigma').
  { rewrite project_sigma_clamp. unfold sigma'. f_equal. apply (sigma0_formula o n (s, y)). cbn. lra. }
  destruct (Nat.eq_dec (o_max_history o) 0) as [E0|E0].
  - assert (h = []) by (destruct h; [reflexivity|cbn in Hlen; lia]). subst h.
    assert (Eh : h' = []) by (unfold h'; rewrite E0; reflexivity).
    unfold update_data. rewrite E0, Es. cbn [Nat.eqb]. eexists. split; [reflexivity|]. rewrite Eh.
    split; [|split; [constructor|split; [reflexivity|split; [assumption|split; [exact HV|split; [intros _; apply HU; assumption|]]]]]].
    + destruct Hd. split; auto.
    + intros x r Hr. unfold lr_mult, setW, set_sigma. cbn [w_diag w_V w_U d_sigma d_V d_U]. rewrite HV, HU by assumption. cbn. ring.
  - destruct (update_data_inv n (o_max_history o) (o_fresh o) s y d h Hd Hlen ltac:(lia)) as (I1 & I2 & I3 & I4 & I5).
    destruct (update_data n (o_max_history o) (o_fresh o) s y d) as [aug d1]. cbn [fst snd] in *.
    replace (o_max_history o =? 0)%nat with false by (symmetry; apply Nat.eqb_neq; assumption).
    rewrite Es. subst aug. fold h' in I1.
    assert (Gp : good n (h ++ [(s, y)])) by (apply Forall_app; split; [assumption|constructor; [assumption|constructor]]).
    assert (Gh : good n h').
    { unfold h', last_n. unfold good in *. rewrite Forall_forall in *. intros p Hp. apply Gp.
      rewrite <- (firstn_skipn (length (h ++ [(s, y)]) - o_max_history o) (h ++ [(s, y)])). apply in_or_app. right. assumption. }
    set (d2 := set_sigma d1 sigma').
    set (V := if (length h <? o_max_history o)%nat then augment_mv (d_V d2) _ else _).
    assert (EV : V = map (vcol n) h').
    { unfold V, d2, set_sigma. cbn [d_V]. rewrite I4, HV. unfold h'. destruct (length h <? o_max_history o)%nat eqn:E.
      - apply Nat.ltb_lt in E. rewrite last_n_short by (rewrite app_length; cbn; lia). rewrite map_app. reflexivity.
      - apply Nat.ltb_ge in E. rewrite last_n_full by lia. rewrite map_app, map_tl. reflexivity. }
    set (d3 := set_VU d2 V (d_U d2)).
    assert (Hd3 : dinv n h' d3) by (destruct I1; split; assumption).
    destruct (bfgs_U_matrix o n h' d3 HL Hd3 Gh) as (U & EU & LU & HW); [exact Hsp|exact EV|].
    rewrite EU. eexists. split; [reflexivity|].
    split; [destruct Hd3; split; assumption|].
    split; [assumption|]. split; [reflexivity|]. split; [assumption|]. split; [exact EV|]. split; [intros; contradiction|].
    intros x r Hr. apply (HW x r Hr).
Qed.
Lemma update_hessian_inv o n it last rest h sigma k st : lapack_ok o -> options_ok o -> o_type o = BFGS ->
  sinv o n last h sigma k st ->
  exists h' sigma' k', sinv o n it h' sigma' k' (update_hessian o n it st) /\
    (bfgs_history o n (last :: rest) h sigma k -> bfgs_history o n (it :: last :: rest) h' sigma' k').
Proof.
  intros HL Ho Ht [S1 S2 S3 S4 S5 S6 S7 S8 S9 S10]. unfold update_hessian. rewrite S1, S2, Ht.
  destruct (o_max_skipping o <=? k)%nat eqn:Ek.
  - apply Nat.leb_le in Ek. exists [], (o_init_val o), 0%nat. split; [apply reset_inv; assumption|]. intros Hh. eapply h_reset; eassumption.
  - apply Nat.leb_gt in Ek.
    pose proof (y_new_pair last it) as EP.
    assert (Hskip : ~ usable o n (pair_of last it) ->
      (Rlt_bool (amax n (s_new last it)) (100 * o_eps o) = true \/ skip_bfgs o n (s_new last it) (y_new last it) = true)).
    { intros Hu. destruct (Rlt_bool_spec (amax n (s_new last it)) (100 * o_eps o)) as [H1|H1]; [left; reflexivity|]. right.
      unfold skip_bfgs. apply Rle_bool_true. apply Rnot_lt_le. intros H2. apply Hu. rewrite <- EP. split; cbn [fst snd]; assumption. }
    destruct (Rlt_bool_spec (amax n (s_new last it)) (100 * o_eps o)) as [H1|H1]; [|destruct (skip_bfgs o n (s_new last it) (y_new last it)) eqn:H2].
    + exists h, sigma, (k + 1)%nat. split; [split; cbn; auto|]. intros Hh. apply h_skip; auto. rewrite <- EP. intros [U _]. cbn [fst] in U. lra.
    + unfold bfgs. rewrite H2. exists h, sigma, (k + 1)%nat. split; [split; cbn; auto|]. intros Hh. apply h_skip; auto. rewrite <- EP. intros [_ U]. cbn [fst snd] in U.
      unfold skip_bfgs in H2. destruct (Rle_bool_spec (dot n (s_new last it) (y_new last it)) (sqrt (o_eps o) * nrm2 n (s_new last it) * nrm2 n (y_new last it))); [lra|discriminate].
    + assert (Hu : usable o n (pair_of last it)).
      { apply NNPP. intros C. destruct (Hskip C) as [X|X]; discriminate. }
      assert (Hsy : 0 < dot n (s_new last it) (y_new last it)).
      { rewrite <- EP in Hu. apply (usable_good o n (s_new last it, y_new last it) Hu). apply Ho. }
      destruct (bfgs_inv o n h (st_data st) (s_new last it) (y_new last it) HL Ho Hsy H2 S3 S4 S5 S8 S9)
        as (d' & Eb & B1 & B2 & B3 & B4 & B5 & B6 & B7).
      rewrite Eb. eexists _, _, 0%nat. split.
      * split; cbn [st_last st_skipped st_data st_W]; eauto. apply last_n_length.
      * intros Hh. rewrite EP. eapply h_use; eassumption.
Qed.
Lemma run_inv o n garbage : lapack_ok o -> options_ok o -> o_type o = BFGS -> forall its it, exists h sigma k,
  sinv o n it h sigma k (run o n garbage (rev its ++ [it])) /\ bfgs_history o n (it :: its) h sigma k.
Proof.
  intros HL Ho Ht. induction its as [|last its IH]; intros it.
  - exists [], (o_init_val o), 0%nat. split; [|constructor]. unfold run, update_hessian. cbn [fold_left rev app initialize st_last]. apply reset_inv. assumption.
  - destruct (IH last) as (h & sigma & k & I1 & I2).
    unfold run in *. cbn [rev]. rewrite fold_left_app. cbn [fold_left].
    destruct (update_hessian_inv o n it last its h sigma k _ HL Ho Ht I1) as (h' & s' & k' & J1 & J2).
    exists h', s', k'. auto.
Qed.
