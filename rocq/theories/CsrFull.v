(** Full_Format: both triangles are stored. *)
From Coq Require Import List Arith Bool Lia Permutation Sorted.
From Verif Require Import CsrModel CsrSpec CsrProofs CsrFinish.
Import ListNotations.

Definition fullL (dim : nat) (F : list fent) : list fent :=
  flat_map (fun r => filter (fun x => frow x =? r) F) (seq 1 dim).

(** place of the next element of row [r] when [pre] is already placed *)
Definition place (F pre : list fent) (r : nat) : nat := rowlt r F + rowcnt r pre.

Definition dd1 (F pre : list fent) (g : grp) (p : nat) : list (nat * nat) :=
  (p, place F pre (g_row g)) ::
  (if g_row g =? g_col g then [] else [(p, place F pre (g_col g))]).

Fixpoint fullD (F pre : list fent) (Gs : list grp) : list (nat * nat) :=
  match Gs with
  | [] => []
  | g :: r => flat_map (dd1 F pre g) (g_rest g) ++ fullD F (pre ++ fe g) r
  end.

Lemma fullD_app F Gs1 : forall pre Gs2,
  fullD F pre (Gs1 ++ Gs2) = fullD F pre Gs1 ++ fullD F (pre ++ fents Gs1) Gs2.
Proof.
  induction Gs1 as [|g Gs1 IH]; intros pre Gs2; simpl.
  - rewrite app_nil_r. reflexivity.
  - rewrite IH, <- !app_assoc. reflexivity.
Qed.

Lemma dd1_length F pre g l :
  length (flat_map (dd1 F pre g) l) = length l * (if g_row g =? g_col g then 1 else 2).
Proof.
  induction l as [|p l IH]; simpl; auto. rewrite app_length, IH. unfold dd1.
  destruct (g_row g =? g_col g); simpl; lia.
Qed.

Lemma fullD_length F Gs : forall pre, length (fullD F pre Gs) = dfull Gs.
Proof.
  induction Gs as [|g Gs IH]; intros pre; simpl; auto.
  rewrite app_length, IH, dd1_length. unfold dfull. simpl. reflexivity.
Qed.

(** Rows of the sorted groups *)
Lemma cnt_cut Gs : gsorted Gs -> forall j g r, nth_error Gs j = Some g ->
  (j < cnt_le r Gs <-> g_row g <= r).
Proof.
  intros GS j g r E.
  rewrite <- rowlt_triL.
  rewrite (rowlt_cut (triL Gs) (triL_sorted Gs GS) j (g_row g, g_col g, g) (r + 1)).
  - unfold frow; simpl. lia.
  - unfold triL. rewrite nth_error_map, E. reflexivity.
Qed.

Lemma fe_In g x : In x (fe g) -> snd x = g /\
  ((frow x = g_row g /\ fcol x = g_col g) \/
   (g_row g <> g_col g /\ frow x = g_col g /\ fcol x = g_row g)).
Proof.
  unfold fe. intros [<-|H]; [split; auto|].
  destruct (Nat.eqb_spec (g_row g) (g_col g)); [destruct H|].
  destruct H as [<-|[]]. split; auto.
Qed.

Lemma fents_ok dim Gs : Forall (gok dim) Gs -> Forall (fok dim) (fents Gs).
Proof.
  intros H. apply Forall_forall. intros x Hx. apply in_flat_map in Hx. destruct Hx as [g [Hg Hx]].
  rewrite Forall_forall in H. specialize (H g Hg). unfold gok in H.
  apply fe_In in Hx. unfold fok. lia.
Qed.

(** ** One element *)
Section Loop.
Variables (off dim : nat) (Gs : list grp) (s : st).
Hypothesis GS : gsorted Gs.
Hypothesis GO : Forall (gok dim) Gs.
Variable nz : nat.
Hypothesis INV : inv2 Full dim nz Gs s.

Let F := fents Gs.

Record Q (m : nat) (t : fst_) : Prop := {
  q_liat : length (f_iat t) = dim + 1;
  q_iat0 : has (f_iat t) 0 0;
  q_iat : forall r, r < dim -> has (f_iat t) (r + 1) (place F (fents (firstn m Gs)) (r + 1));
  q_lja : length (f_ja t) = length F;
  q_lip : length (f_ipf t) = length F;
  q_ja : forall a x b, fents (firstn m Gs) = a ++ x :: b ->
     has (f_ja t) (place F a (frow x)) (fcol x - 1 + off) /\
     has (f_ipf t) (place F a (frow x)) (g_first (snd x));
  q_ldt : length (f_dt t) = dfull Gs;
  q_ldc : length (f_dc t) = dfull Gs;
  q_jd1 : jd1 t = length (dbls 0 (firstn m Gs));
  q_jd2 : jd2 t = length (fullD F [] (firstn m Gs));
  q_d : forall k p q, nth_error (fullD F [] (firstn m Gs)) k = Some (p, q) ->
     has (f_dt t) k p /\ has (f_dc t) k q
}.

Lemma firstn_snoc {A} (l : list A) j g : nth_error l j = Some g -> firstn (S j) l = firstn j l ++ [g].
Proof.
  revert j; induction l as [|x l IH]; intros [|j] E; simpl in *; try discriminate.
  - injection E as <-. reflexivity.
  - rewrite IH; auto.
Qed.

Lemma split_at {A} (l : list A) j g : nth_error l j = Some g -> l = firstn j l ++ g :: skipn (S j) l.
Proof.
  revert j; induction l as [|x l IH]; intros [|j] E; simpl in *; try discriminate.
  - injection E as <-. reflexivity.
  - f_equal. apply IH. auto.
Qed.

(** the repeated entries of group [j] *)
Lemma dbl_loop_ok j g : nth_error Gs j = Some g ->
  forall todo done t,
  g_rest g = done ++ todo ->
  length (f_iat t) = dim + 1 ->
  has (f_iat t) (g_row g) (place F (fents (firstn j Gs)) (g_row g)) ->
  has (f_iat t) (g_col g) (place F (fents (firstn j Gs)) (g_col g)) ->
  length (f_dt t) = dfull Gs -> length (f_dc t) = dfull Gs ->
  jd1 t = length (dbls 0 (firstn j Gs)) + length done ->
  let pre := fullD F [] (firstn j Gs) in
  jd2 t = length (pre ++ flat_map (dd1 F (fents (firstn j Gs)) g) done) ->
  (forall k p q, nth_error (pre ++ flat_map (dd1 F (fents (firstn j Gs)) g) done) k = Some (p, q) ->
     has (f_dt t) k p /\ has (f_dc t) k q) ->
  exists t', dbl_loop (idb s - jd1 t) s (g_row g - 1) j (g_col g - 1) t = Some t' /\
    f_iat t' = f_iat t /\ f_ja t' = f_ja t /\ f_ipf t' = f_ipf t /\
    length (f_dt t') = dfull Gs /\ length (f_dc t') = dfull Gs /\
    jd1 t' = length (dbls 0 (firstn j Gs)) + length (g_rest g) /\
    jd2 t' = length (pre ++ flat_map (dd1 F (fents (firstn j Gs)) g) (g_rest g)) /\
    (forall k p q, nth_error (pre ++ flat_map (dd1 F (fents (firstn j Gs)) g) (g_rest g)) k = Some (p, q) ->
     has (f_dt t') k p /\ has (f_dc t') k q).
Proof.
  intros Eg. pose proof (split_at Gs j g Eg) as ESp.
  assert (Lj : length (firstn j Gs) = j).
  { rewrite firstn_length. apply Nat.min_l. apply Nat.lt_le_incl. apply nth_error_Some. congruence. }
  assert (ED : dbls 0 Gs = dbls 0 (firstn j Gs) ++ map (fun p => (p, j)) (g_rest g) ++ dbls (S j) (skipn (S j) Gs)).
  { rewrite ESp at 1. rewrite dbls_app, Lj. reflexivity. }
  assert (Og : gok dim g) by (rewrite Forall_forall in GO; apply GO; eapply nth_error_In; eauto).
  destruct Og as [Og1 [Og2 Og3]].
  induction todo as [|p todo IH]; intros done t Hr Hl H1 H2 L1 L2 J1 pre J2 HD.
  - rewrite app_nil_r in Hr. subst done.
    exists t.
    assert (E : dbl_loop (idb s - jd1 t) s (g_row g - 1) j (g_col g - 1) t = Some t).
    { destruct (idb s - jd1 t) as [|fuel] eqn:Ef; [reflexivity|]. simpl.
      destruct (nth_error_seqlen (dbls 0 Gs) (jd1 t)) as [[p q] Ed].
      { rewrite <- (j_idb _ _ _ _ _ INV). lia. }
      destruct (j_d _ _ _ _ _ INV _ _ _ Ed) as [_ Hq]. rewrite Hq.
      rewrite ED, nth_error_app2, nth_error_app2 in Ed by (try rewrite map_length; lia).
      apply nth_error_In in Ed. pose proof (dbls_bound (S j) (skipn (S j) Gs)) as B.
      rewrite Forall_forall in B. specialize (B _ Ed). simpl in B.
      destruct (Nat.eqb_spec j q); [lia|reflexivity]. }
    rewrite E. repeat (split; [solve [auto]|]). exact HD.
  - assert (Ed : nth_error (dbls 0 Gs) (jd1 t) = Some (p, j)).
    { rewrite ED, J1, nth_error_app2 by lia.
      replace (length (dbls 0 (firstn j Gs)) + length done - length (dbls 0 (firstn j Gs))) with (length done) by lia.
      rewrite Hr, map_app, <- app_assoc, nth_error_app2 by (rewrite map_length; lia).
      rewrite map_length, Nat.sub_diag. reflexivity. }
    assert (Hlt : jd1 t < idb s).
    { rewrite (j_idb _ _ _ _ _ INV). apply nth_error_Some. congruence. }
    destruct (j_d _ _ _ _ _ INV _ _ _ Ed) as [Hp Hq].
    destruct (idb s - jd1 t) as [|fuel] eqn:Ef; [lia|]. simpl.
    rewrite Hq, Nat.eqb_refl, Hp. 
    replace (g_row g - 1 + 1) with (g_row g) by lia. rewrite H1.
    (* room in the arrays *)
    assert (Hroom : jd2 t + (if g_row g =? g_col g then 1 else 2) <= dfull Gs).
    { rewrite J2, app_length. unfold pre. rewrite fullD_length, dd1_length. rewrite ESp at 2. rewrite dfull_app.
      unfold dfull at 3. simpl. rewrite Hr, app_length. simpl.
      destruct (g_row g =? g_col g); simpl; lia. }
    destruct (aset_ok (f_dt t) (jd2 t) p) as [dt1 [E1 [M1 [S1 O1]]]].
    { destruct (g_row g =? g_col g); lia. } rewrite E1.
    destruct (aset_ok (f_dc t) (jd2 t) (place F (fents (firstn j Gs)) (g_row g))) as [dc1 [E2 [M2 [S2 O2]]]].
    { destruct (g_row g =? g_col g); lia. } rewrite E2.
    replace (g_col g - 1 + 1) with (g_col g) by lia.
    assert (Ecmp : (g_col g - 1 =? g_row g - 1) = (g_row g =? g_col g)).
    { destruct (Nat.eqb_spec (g_col g - 1) (g_row g - 1)); destruct (Nat.eqb_spec (g_row g) (g_col g)); auto; lia. }
    rewrite Ecmp.
    assert (Hfold : forall l, flat_map (dd1 F (fents (firstn j Gs)) g) (l ++ [p]) =
       flat_map (dd1 F (fents (firstn j Gs)) g) l ++ dd1 F (fents (firstn j Gs)) g p).
    { intros l. rewrite flat_map_app. simpl. rewrite app_nil_r. reflexivity. }
    destruct (Nat.eqb_spec (g_row g) (g_col g)) as [q|q]; simpl negb; cbv iota.
    + set (t1 := Fst (f_iat t) (f_ja t) (f_ipf t) dt1 dc1 (jd1 t + 1) (jd2 t + 1)).
      destruct (IH (done ++ [p]) t1) as [t' [A0 A]]; auto; unfold t1; cbn [f_iat f_dt f_dc jd1 jd2]; try lia.
      * rewrite <- app_assoc. auto.
      * rewrite app_length. simpl. lia.
      * rewrite Hfold, app_assoc, app_length. fold pre. rewrite <- J2. unfold dd1.
        rewrite (proj2 (Nat.eqb_eq _ _) q). simpl. lia.
      * intros k a b Hk. rewrite Hfold in Hk. unfold dd1 at 2 in Hk.
        rewrite (proj2 (Nat.eqb_eq _ _) q) in Hk. rewrite app_assoc in Hk. apply nth_snoc in Hk.
        destruct Hk as [[Lk Hk]|[-> Hk]].
        { destruct (HD _ _ _ Hk). split; [apply O1|apply O2]; auto; rewrite J2; apply Nat.lt_neq; auto. }
        { injection Hk as -> ->. unfold pre in J2. rewrite <- J2. auto. }
      * exists t'. split; [|exact A]. rewrite <- A0. f_equal. cbn. lia.
    + rewrite H2.
      destruct (aset_ok dt1 (jd2 t + 1) p) as [dt2 [E3 [M3 [S3 O3]]]]; [lia|]. rewrite E3.
      destruct (aset_ok dc1 (jd2 t + 1) (place F (fents (firstn j Gs)) (g_col g))) as [dc2 [E4 [M4 [S4 O4]]]]; [lia|].
      rewrite E4.
      set (t1 := Fst (f_iat t) (f_ja t) (f_ipf t) dt2 dc2 (jd1 t + 1) (jd2 t + 1 + 1)).
      destruct (IH (done ++ [p]) t1) as [t' [A0 A]]; auto; unfold t1; cbn [f_iat f_dt f_dc jd1 jd2]; try lia.
      * rewrite <- app_assoc. auto.
      * rewrite app_length. simpl. lia.
      * rewrite Hfold, app_assoc, app_length. fold pre. rewrite <- J2. unfold dd1.
        rewrite (proj2 (Nat.eqb_neq _ _) q). simpl. lia.
      * intros k a b Hk. rewrite Hfold in Hk. unfold dd1 at 2 in Hk.
        rewrite (proj2 (Nat.eqb_neq _ _) q) in Hk. rewrite app_assoc in Hk.
        change [?u; ?v] with ([u] ++ [v]) in Hk. rewrite app_assoc in Hk. apply nth_snoc in Hk.
        destruct Hk as [[Lk Hk]|[-> Hk]].
        { apply nth_snoc in Hk. destruct Hk as [[Lk' Hk]|[-> Hk]].
          - fold pre in Lk'. destruct (HD _ _ _ Hk).
            split; [apply O3|apply O4]; try lia; (apply O1 || apply O2); auto; lia.
          - injection Hk as -> ->. fold pre. rewrite <- J2.
            split; [apply O3|apply O4]; auto; lia. }
        { injection Hk as -> ->. rewrite app_length. fold pre. rewrite <- J2. simpl. auto. }
      * exists t'. split; [|exact A]. rewrite <- A0. f_equal. cbn. lia.
Qed.

Lemma F_split j g : nth_error Gs j = Some g ->
  F = fents (firstn j Gs) ++ fe g ++ fents (skipn (S j) Gs).
Proof.
  intros E. unfold F. rewrite (split_at Gs j g E) at 1. rewrite fents_app. reflexivity.
Qed.

Lemma F_rows : Forall (fun x => frow x < dim + 1) F.
Proof. eapply Forall_impl; [|apply fents_ok; exact GO]. unfold fok; intros; lia. Qed.

(** places are inside of the arrays *)
Lemma place_lt a x b : F = a ++ x :: b -> place F a (frow x) < rowlt (frow x + 1) F.
Proof.
  intros E. unfold place. rewrite rowlt_S.
  assert (rowcnt (frow x) a < rowcnt (frow x) F).
  { rewrite E. rewrite rowcnt_app, rowcnt_cons, Nat.eqb_refl. lia. }
  lia.
Qed.

Lemma place_len a x b : F = a ++ x :: b -> place F a (frow x) < length F.
Proof. intros E. pose proof (place_lt a x b E). pose proof (rowlt_le (frow x + 1) F). lia. Qed.

(** places are different *)
Lemma place_inj a x b a' y b' : F = a ++ x :: b -> F = a' ++ y :: b' ->
  length a < length a' -> place F a (frow x) <> place F a' (frow y).
Proof.
  intros E E' Hl.
  pose proof (place_lt _ _ _ E) as P1. pose proof (place_lt _ _ _ E') as P2.
  destruct (Nat.lt_trichotomy (frow x) (frow y)) as [L|[L|L]].
  - pose proof (rowlt_mono (frow x + 1) (frow y) F ltac:(lia)). unfold place in *. lia.
  - unfold place. rewrite L.
    assert (Ha : exists c, a' = a ++ x :: c).
    { assert (X : a ++ x :: b = a' ++ y :: b') by congruence. clear - X Hl.
      revert a' X Hl. induction a as [|z a IH]; intros [|z' a'] X Hl; simpl in *; try lia.
      - injection X as <- _. exists a'. reflexivity.
      - injection X as <- X. destruct (IH a' X ltac:(lia)) as [c ->]. exists c. reflexivity. }
    destruct Ha as [c ->]. rewrite rowcnt_app, rowcnt_cons, L, Nat.eqb_refl. lia.
  - pose proof (rowlt_mono (frow y + 1) (frow x) F ltac:(lia)). unfold place in *. lia.
Qed.

Lemma nth_of_app {A} (a : list A) x b : nth_error (a ++ x :: b) (length a) = Some x.
Proof. rewrite nth_error_app2, Nat.sub_diag by lia. reflexivity. Qed.

Lemma app_snoc_inv {A} (l : list A) y a x b : l ++ [y] = a ++ x :: b ->
  (exists b', l = a ++ x :: b' /\ b = b' ++ [y]) \/ (a = l /\ x = y /\ b = []).
Proof.
  intros H. destruct (exists_last (l := x :: b) ltac:(discriminate)) as [b' [z Ez]].
  rewrite Ez in H. rewrite app_assoc in H. apply app_inj_tail in H. destruct H as [-> ->].
  destruct b' as [|x' b']; simpl in Ez.
  - injection Ez as -> ->. right. rewrite app_nil_r. auto.
  - injection Ez as -> ->. left. exists b'. auto.
Qed.

Lemma full_elem_ok j g t : nth_error Gs j = Some g -> Q j t ->
  exists t', full_elem off s (g_row g - 1) j t = Some t' /\ Q (S j) t'.
Proof.
  intros Eg HQ. destruct HQ as [Hliat Hiat0 Hiat Hlja Hlip Hja Hldt Hldc Hjd1 Hjd2 Hd].
  assert (Og : gok dim g) by (rewrite Forall_forall in GO; apply GO; eapply nth_error_In; eauto).
  destruct Og as [Og1 [Og2 Og3]].
  set (pre := fents (firstn j Gs)) in *.
  pose proof (F_split j g Eg) as EF. fold pre in EF.
  assert (Hrow : has (f_iat t) (g_row g) (place F pre (g_row g))).
  { replace (g_row g) with (g_row g - 1 + 1) by lia. apply Hiat. lia. }
  assert (Hcol : has (f_iat t) (g_col g) (place F pre (g_col g))).
  { replace (g_col g) with (g_col g - 1 + 1) by lia. apply Hiat. lia. }
  destruct (j_ja _ _ _ _ _ INV _ _ Eg) as [Hjc Hjf].
  unfold full_elem. rewrite Hjc. replace (g_row g - 1 + 1) with (g_row g) by lia. rewrite Hrow.
  set (x1 := (g_row g, g_col g, g) : fent).
  assert (EF1 : exists b, F = pre ++ x1 :: b).
  { rewrite EF. unfold fe. simpl. eexists. reflexivity. }
  destruct EF1 as [b1 EF1].
  pose proof (place_len _ _ _ EF1) as PL1. unfold frow, x1 in PL1; simpl in PL1.
  destruct (aset_ok (f_ja t) (place F pre (g_row g)) (g_col g - 1 + off)) as [ja1 [E1 [L1 [S1 O1]]]]; [lia|].
  rewrite E1, Hjf.
  destruct (aset_ok (f_ipf t) (place F pre (g_row g)) (g_first g)) as [ip1 [E2 [L2 [S2 O2]]]]; [lia|].
  rewrite E2.
  set (t0 := Fst (f_iat t) ja1 ip1 (f_dt t) (f_dc t) (jd1 t) (jd2 t)).
  destruct (dbl_loop_ok j g Eg (g_rest g) [] t0) as [t1 [E3 [T1 [T2 [T3 [T4 [T5 [T6 [T7 T8]]]]]]]]];
    auto; unfold t0; cbn [f_iat f_ja f_ipf f_dt f_dc jd1 jd2]; auto.
  { simpl. lia. }
  { simpl flat_map. rewrite app_nil_r. auto. }
  { simpl flat_map. rewrite app_nil_r. auto. }
  unfold t0 in E3, T1, T2, T3; cbn [f_iat f_ja f_ipf f_dt f_dc jd1 jd2] in E3, T1, T2, T3.
  rewrite E3, T1.
  destruct (ainc_ok _ _ _ Hrow) as [iat1 [E4 [L4 [S4 O4]]]]. rewrite E4.
  assert (Ecmp : (g_col g - 1 =? g_row g - 1) = (g_row g =? g_col g)).
  { destruct (Nat.eqb_spec (g_col g - 1) (g_row g - 1)); destruct (Nat.eqb_spec (g_row g) (g_col g)); auto; lia. }
  rewrite Ecmp.
  assert (EFn : fents (firstn (S j) Gs) = pre ++ fe g).
  { rewrite (firstn_snoc _ _ _ Eg), fents_app. unfold fents at 2. simpl. rewrite app_nil_r. reflexivity. }
  assert (EDn : dbls 0 (firstn (S j) Gs) = dbls 0 (firstn j Gs) ++ map (fun p => (p, j)) (g_rest g)).
  { rewrite (firstn_snoc _ _ _ Eg), dbls_app. simpl. rewrite app_nil_r. do 2 f_equal.
    rewrite firstn_length. rewrite Nat.min_l; auto. apply Nat.lt_le_incl. apply nth_error_Some. congruence. }
  assert (EDDn : fullD F [] (firstn (S j) Gs) = fullD F [] (firstn j Gs) ++ flat_map (dd1 F pre g) (g_rest g)).
  { rewrite (firstn_snoc _ _ _ Eg), fullD_app. simpl. rewrite app_nil_r. reflexivity. }
  (* earlier elements stay *)
  assert (Hold1 : forall a x b, pre = a ++ x :: b ->
     place F a (frow x) <> place F pre (g_row g)).
  { intros a x b E. pose proof EF1 as E'.
    change (g_row g) with (frow x1). eapply place_inj; [|exact E'|].
    - rewrite EF1 at 1. rewrite E, <- app_assoc. simpl. reflexivity.
    - rewrite E, app_length. simpl. lia. }
  destruct (Nat.eqb_spec (g_row g) (g_col g)) as [q|q]; simpl negb; cbv iota.
  - eexists. split; [reflexivity|].
    constructor; cbn [f_iat f_ja f_ipf f_dt f_dc jd1 jd2]; auto; try lia.
    + apply O4; auto. lia.
    + intros r Hr. rewrite EFn. rewrite (fe_eq g q). unfold place. rewrite rowcnt_app, rowcnt_cons.
      unfold frow; simpl. change (rowcnt (r+1) []) with 0.
      destruct (Nat.eqb_spec (g_row g) (r + 1)) as [e|e].
      * rewrite <- e. unfold place in S4.
        replace (rowlt (g_row g) F + (rowcnt (g_row g) pre + (1 + 0))) with
          (S (rowlt (g_row g) F + rowcnt (g_row g) pre)) by lia. auto.
      * rewrite Nat.add_0_r. apply O4; auto. apply Hiat. auto.
    + rewrite T2. lia.
    + rewrite T3. lia.
    + intros a x b E. rewrite EFn, (fe_eq g q) in E. apply app_snoc_inv in E.
      destruct E as [[b' [E _]]|[-> [-> _]]].
      * destruct (Hja a x b' E). rewrite T2, T3. split; [apply O1|apply O2]; eauto.
      * rewrite T2, T3. unfold frow, fcol; simpl. auto.
    + rewrite EDn, app_length, map_length. auto.
    + rewrite EDDn. auto.
    + intros k p q' Hk. rewrite EDDn in Hk. apply T8. auto.
  - assert (Hcol1 : has iat1 (g_col g) (place F pre (g_col g))) by (apply O4; auto).
    replace (g_col g - 1 + 1) with (g_col g) by lia. rewrite Hcol1.
    set (x2 := (g_col g, g_row g, g) : fent).
    assert (EF2 : exists b, F = (pre ++ [x1]) ++ x2 :: b).
    { exists (fents (skipn (S j) Gs)). rewrite EF, (fe_ne g q), <- app_assoc. reflexivity. }
    destruct EF2 as [b2 EF2].
    assert (Epl : place F (pre ++ [x1]) (g_col g) = place F pre (g_col g)).
    { unfold place. rewrite rowcnt_app, rowcnt_cons. unfold frow, x1; simpl.
      destruct (Nat.eqb_spec (g_row g) (g_col g)); [lia|]. change (rowcnt (g_col g) []) with 0. lia. }
    pose proof (place_len _ _ _ EF2) as PL2. change (frow x2) with (g_col g) in PL2. rewrite Epl in PL2.
    destruct (aset_ok (f_ja t1) (place F pre (g_col g)) (g_row g - 1 + off)) as [ja2 [E5 [L5 [S5 O5]]]].
    { rewrite T2. lia. } rewrite E5.
    destruct (aset_ok (f_ipf t1) (place F pre (g_col g)) (g_first g)) as [ip2 [E6 [L6 [S6 O6]]]].
    { rewrite T3. lia. } rewrite E6.
    destruct (ainc_ok _ _ _ Hcol1) as [iat2 [E7 [L7 [S7 O7]]]]. rewrite E7.
    assert (Hne12 : place F pre (g_row g) <> place F pre (g_col g)).
    { rewrite <- Epl. change (g_row g) with (frow x1) at 1. change (g_col g) with (frow x2).
      eapply place_inj; [exact EF1|exact EF2|]. rewrite app_length; simpl; lia. }
    assert (Hold2 : forall a x b, pre = a ++ x :: b ->
       place F a (frow x) <> place F pre (g_col g)).
    { intros a x b E. rewrite <- Epl. change (g_col g) with (frow x2).
      eapply place_inj; [|exact EF2|].
      - rewrite EF1 at 1. rewrite E, <- app_assoc. simpl. reflexivity.
      - rewrite E, !app_length. simpl. lia. }
    eexists. split; [reflexivity|].
    constructor; cbn [f_iat f_ja f_ipf f_dt f_dc jd1 jd2]; auto; try lia.
    + apply O7; [lia|]. apply O4; auto. lia.
    + intros r Hr. rewrite EFn. rewrite (fe_ne g q). unfold place. rewrite rowcnt_app, !rowcnt_cons.
      unfold frow; simpl. change (rowcnt (r+1) []) with 0.
      destruct (Nat.eqb_spec (g_row g) (r + 1)) as [e|e].
      * destruct (Nat.eqb_spec (g_col g) (r + 1)) as [e2|e2]; [lia|].
        apply O7; [lia|]. rewrite <- e. unfold place in S4.
        replace (rowlt (g_row g) F + (rowcnt (g_row g) pre + (1 + (0 + 0)))) with
          (S (rowlt (g_row g) F + rowcnt (g_row g) pre)) by lia. auto.
      * destruct (Nat.eqb_spec (g_col g) (r + 1)) as [e2|e2].
        -- rewrite <- e2. unfold place in S7.
           replace (rowlt (g_col g) F + (rowcnt (g_col g) pre + (0 + (1 + 0)))) with
             (S (rowlt (g_col g) F + rowcnt (g_col g) pre)) by lia. auto.
        -- simpl. rewrite Nat.add_0_r. apply O7; auto. apply O4; auto. apply Hiat. auto.
    + rewrite L5, T2. lia.
    + rewrite L6, T3. lia.
    + intros a x b E. rewrite EFn, (fe_ne g q) in E.
      change [?u; ?v] with ([u] ++ [v]) in E. rewrite app_assoc in E.
      apply app_snoc_inv in E. destruct E as [[b' [E _]]|[-> [-> _]]].
      * apply app_snoc_inv in E. destruct E as [[b'' [E _]]|[-> [-> _]]].
        -- destruct (Hja a x b'' E) as [X Y]. rewrite T2 in O5. rewrite T3 in O6.
           split; [apply O5|apply O6]; try (eapply Hold2; eauto); [apply O1|apply O2]; auto;
             eapply Hold1; eauto.
        -- rewrite T2 in O5. rewrite T3 in O6. fold x1. change (frow x1) with (g_row g).
           change (fcol x1) with (g_col g). change (snd x1) with g.
           split; [apply O5|apply O6]; auto.
      * fold x1 x2. change (frow x2) with (g_col g). change (fcol x2) with (g_row g).
        change (snd x2) with g. rewrite Epl. auto.
    + rewrite EDn, app_length, map_length. auto.
    + rewrite EDDn. auto.
    + intros k p q' Hk. rewrite EDDn in Hk. apply T8. auto.
Qed.

Lemma full_rows_ok t : Q 0 t -> exists t', full_rows off dim s t = Some t' /\ Q (length Gs) t'.
Proof.
  intros H0. unfold full_rows.
  destruct (for_loop_inv (fun i t => Q (cnt_le i Gs) t)
     (fun i t => lo <- aget (ia s) i ;; hi <- aget (ia s) (i + 1) ;;
        for_loop (hi - lo) lo (fun j t => full_elem off s i j t) t) dim 0 t) as [t' [E H]].
  - intros i t1 Hi HQ.
    rewrite (j_ia _ _ _ _ _ INV i ltac:(lia)), (j_ia _ _ _ _ _ INV (i + 1) ltac:(lia)).
    assert (Hle : cnt_le i Gs <= cnt_le (i + 1) Gs).
    { rewrite <- !rowlt_triL. apply rowlt_mono. lia. }
    assert (Hlen : cnt_le (i + 1) Gs <= length Gs) by apply filter_length_le.
    destruct (for_loop_inv (fun j t => Q j t) (fun j t => full_elem off s i j t)
       (cnt_le (i + 1) Gs - cnt_le i Gs) (cnt_le i Gs) t1) as [t2 [E2 H2]]; auto.
    + intros j t3 Hj H3.
      destruct (nth_error_seqlen Gs j ltac:(lia)) as [g Eg].
      assert (Hr : g_row g = i + 1).
      { assert (g_row g <= i + 1) by (apply (cnt_cut Gs GS j g); auto; lia).
        assert (~ g_row g <= i) by (rewrite <- (cnt_cut Gs GS j g i Eg); lia). lia. }
      destruct (full_elem_ok j g t3 Eg H3) as [t4 [E4 H4]].
      replace (g_row g - 1) with i in E4 by lia. eauto.
    + exists t2. split; auto. replace (S i) with (i + 1) by lia.
      replace (cnt_le (i + 1) Gs) with (cnt_le i Gs + (cnt_le (i + 1) Gs - cnt_le i Gs)) by lia. auto.
  - assert (Ez : cnt_le 0 Gs = 0).
    { rewrite <- rowlt_triL. apply rowlt_1. eapply Forall_impl; [|apply triL_ok; exact GO].
      unfold fok; intros; lia. }
    rewrite Ez. auto.
  - exists t'. split; auto. simpl in H. rewrite cnt_le_all in H; auto.
    eapply Forall_impl; [|exact GO]. unfold gok; intros; lia.
Qed.

(** ** The final list of elements *)
Lemma fullL_prefix n : Forall (fun x => 1 <= frow x) F ->
  length (flat_map (fun r => filter (fun x => frow x =? r) F) (seq 1 n)) = rowlt (n + 1) F.
Proof.
  intros H1. induction n as [|n IH].
  - simpl. symmetry. apply rowlt_1. auto.
  - rewrite seq_S, flat_map_app, app_length, IH. simpl. rewrite app_nil_r.
    rewrite (rowlt_S (S n)). replace (n + 1) with (S n) by lia. reflexivity.
Qed.

Lemma filter_split {A} (f : A -> bool) l : forall k x, nth_error (filter f l) k = Some x ->
  exists a b, l = a ++ x :: b /\ f x = true /\ length (filter f a) = k.
Proof.
  induction l as [|y l IH]; intros k x E; simpl in E; [destruct k; discriminate|].
  destruct (f y) eqn:Fy.
  - destruct k as [|k]; simpl in E.
    + injection E as <-. exists [], l. auto.
    + destruct (IH k x E) as [a [b [-> [Fx Hk]]]]. exists (y :: a), b. simpl. rewrite Fy. simpl. auto.
  - destruct (IH k x E) as [a [b [-> [Fx Hk]]]]. exists (y :: a), b. simpl. rewrite Fy. auto.
Qed.

Lemma F_ge1 : Forall (fun x => 1 <= frow x) F.
Proof. eapply Forall_impl; [|apply fents_ok; exact GO]. unfold fok; intros; lia. Qed.

Lemma fullL_nth p x : nth_error (fullL dim F) p = Some x ->
  exists a b, F = a ++ x :: b /\ p = place F a (frow x).
Proof.
  unfold fullL. generalize dim at 1 as n. intros n. revert p. induction n as [|n IH]; intros p E.
  - destruct p; discriminate.
  - rewrite seq_S, flat_map_app in E. simpl in E. rewrite app_nil_r in E.
    pose proof (fullL_prefix n F_ge1) as L.
    destruct (Nat.lt_ge_cases p (rowlt (n + 1) F)) as [Lp|Lp].
    + rewrite nth_error_app1 in E by lia. auto.
    + rewrite nth_error_app2 in E by lia. rewrite L in E.
      destruct (filter_split _ _ _ _ E) as [a [b [EF [Fx Hk]]]].
      apply Nat.eqb_eq in Fx. exists a, b. split; auto. unfold place, rowcnt.
      rewrite Fx. replace (n + 1) with (S n) in * by lia. lia.
Qed.

Lemma fullL_length : length (fullL dim F) = length F.
Proof.
  unfold fullL. rewrite (fullL_prefix dim F_ge1). apply rowlt_all. apply F_rows.
Qed.

Lemma rowcnt_fullL r : 1 <= r <= dim -> rowcnt r (fullL dim F) = rowcnt r F.
Proof.
  intros Hr. unfold fullL.
  assert (HH : forall n, rowcnt r (flat_map (fun r => filter (fun x => frow x =? r) F) (seq 1 n)) =
     if r <=? n then rowcnt r F else 0).
  { induction n as [|n IH].
    - simpl. destruct (Nat.leb_spec r 0); [lia|]. reflexivity.
    - rewrite seq_S, flat_map_app, rowcnt_app, IH. simpl flat_map. rewrite app_nil_r.
      change (1 + n) with (S n).
      assert (E : rowcnt r (filter (fun x => frow x =? S n) F) = if r =? S n then rowcnt r F else 0).
      { unfold rowcnt. destruct (Nat.eqb_spec r (S n)) as [->|N].
        - f_equal. apply filter_all. intros x Hx. apply filter_In in Hx. tauto.
        - rewrite filter_none; auto. intros x Hx. apply filter_In in Hx. destruct Hx as [_ Hx].
          apply Nat.eqb_eq in Hx. apply Nat.eqb_neq. lia. }
      rewrite E. destruct (Nat.leb_spec r n); destruct (Nat.leb_spec r (S n)); destruct (Nat.eqb_spec r (S n)); lia. }
  rewrite HH. destruct (Nat.leb_spec r dim); [auto|lia].
Qed.

Lemma rowlt_fullL k : k <= dim -> rowlt (k + 1) (fullL dim F) = rowlt (k + 1) F.
Proof.
  induction k as [|k IH]; intros Hk.
  - simpl. rewrite (rowlt_1 F F_ge1). apply rowlt_1. apply Forall_forall. intros x Hx.
    apply in_flat_map in Hx. destruct Hx as [r [_ Hx]]. apply filter_In in Hx.
    pose proof F_ge1 as G. rewrite Forall_forall in G. apply G. tauto.
  - replace (S k + 1) with (k + 1 + 1) by lia. rewrite (rowlt_S (k + 1) (fullL dim F)), (rowlt_S (k + 1) F), rowcnt_fullL, IH by lia. reflexivity.
Qed.

Definition rlt (x y : fent) : Prop := frow x = frow y -> fcol x < fcol y.

Lemma fents_rlt l : gsorted l -> Forall (gok dim) l -> StronglySorted rlt (fents l).
Proof.
  intros S O. induction S as [|g l Hl IH Hg]; simpl; [constructor|].
  inversion O as [|? ? Og Ol]; subst. change (StronglySorted rlt (fe g ++ fents l)). apply SS_app; auto.
  - unfold fe. constructor; [destruct (g_row g =? g_col g); repeat constructor|].
    destruct (Nat.eqb_spec (g_row g) (g_col g)); repeat constructor. unfold rlt, frow, fcol; simpl. lia.
  - intros x y Hx Hy. apply in_flat_map in Hy. destruct Hy as [h [Hh Hy]].
    rewrite Forall_forall in Hg, Ol. specialize (Hg h Hh). specialize (Ol h Hh).
    apply fe_In in Hx. apply fe_In in Hy. unfold glt, gok, rlt in *. intros E. lia.
Qed.

Lemma SS_filter {A} (R : A -> A -> Prop) (f : A -> bool) l : StronglySorted R l -> StronglySorted R (filter f l).
Proof.
  induction 1 as [|x l Hl IH Hx]; simpl; [constructor|]. destruct (f x); auto. constructor; auto.
  apply Forall_forall. intros y Hy. apply filter_In in Hy. rewrite Forall_forall in Hx. apply Hx. tauto.
Qed.

Lemma fullL_sorted : StronglySorted llt (fullL dim F).
Proof.
  unfold fullL. generalize dim at 1 as n. induction n as [|n IH]; [constructor|].
  rewrite seq_S, flat_map_app. simpl. rewrite app_nil_r. apply SS_app; auto.
  - pose proof (SS_filter rlt (fun x => frow x =? S n) F (fents_rlt Gs GS GO)) as SR.
    assert (H : Forall (fun x => frow x = S n) (filter (fun x => frow x =? S n) F)).
    { apply Forall_forall. intros x Hx. apply filter_In in Hx. apply Nat.eqb_eq. tauto. }
    induction SR as [|x l Hl IHl Hx]; constructor.
    + apply IHl. inversion H; auto.
    + inversion H as [|? ? H1 H2]; subst. apply Forall_forall. intros y Hy.
      rewrite Forall_forall in Hx, H2. right. rewrite H1, (H2 y Hy). split; auto.
      apply Hx; auto. rewrite H1, (H2 y Hy). auto.
  - intros x y Hx Hy. apply in_flat_map in Hx. destruct Hx as [r [Hr Hx]]. apply in_seq in Hr.
    apply filter_In in Hx. apply filter_In in Hy. destruct Hx as [_ Hx]. destruct Hy as [_ Hy].
    apply Nat.eqb_eq in Hx. apply Nat.eqb_eq in Hy. left. lia.
Qed.

Lemma fullL_In x : In x (fullL dim F) <-> In x F.
Proof.
  unfold fullL. rewrite in_flat_map. split.
  - intros [r [_ H]]. apply filter_In in H. tauto.
  - intros H. exists (frow x). split.
    + apply in_seq. pose proof F_ge1 as G. pose proof F_rows as G'. rewrite Forall_forall in G, G'.
      specialize (G x H). specialize (G' x H). lia.
    + apply filter_In. split; auto. apply Nat.eqb_refl.
Qed.

Lemma fullL_ok : Forall (fok dim) (fullL dim F).
Proof.
  pose proof (fents_ok dim Gs GO) as H. rewrite Forall_forall in H. apply Forall_forall. intros x Hx. apply H.
  apply fullL_In. auto.
Qed.

(** additions to place p *)
Lemma fullD_filter a0 x b0 : F = a0 ++ x :: b0 ->
  map fst (filter (fun d => snd d =? place F a0 (frow x)) (fullD F [] Gs)) = g_rest (snd x).
Proof.
  intros EX.
  assert (HH : forall Gs2 Gs1, Gs1 ++ Gs2 = Gs ->
     map fst (filter (fun d => snd d =? place F a0 (frow x)) (fullD F (fents Gs1) Gs2)) =
     if length (fents Gs1) <=? length a0 then g_rest (snd x) else []).
  { induction Gs2 as [|g Gs2 IH]; intros Gs1 EG.
    - rewrite app_nil_r in EG. subst Gs1. simpl. fold F.
      assert (length a0 < length F) by (rewrite EX, app_length; simpl; lia).
      destruct (Nat.leb_spec (length F) (length a0)); [lia|reflexivity].
    - simpl. rewrite filter_app, map_app.
      assert (EG' : (Gs1 ++ [g]) ++ Gs2 = Gs) by (rewrite <- app_assoc; auto).
      specialize (IH (Gs1 ++ [g]) EG').
      assert (Efe : fents (Gs1 ++ [g]) = fents Gs1 ++ fe g).
      { rewrite fents_app. unfold fents at 2. simpl. rewrite app_nil_r. reflexivity. }
      rewrite Efe in IH. rewrite IH. clear IH.
      assert (EF : F = fents Gs1 ++ fe g ++ fents Gs2).
      { unfold F. rewrite <- EG, fents_app. reflexivity. }
      set (P := fents Gs1) in *.
      set (x1 := (g_row g, g_col g, g) : fent). set (x2 := (g_col g, g_row g, g) : fent).
      assert (EF1 : F = P ++ x1 :: (if g_row g =? g_col g then [] else [x2]) ++ fents Gs2).
      { rewrite EF. reflexivity. }
      assert (EF2 : g_row g <> g_col g -> F = (P ++ [x1]) ++ x2 :: fents Gs2).
      { intros N. rewrite EF, (fe_ne g N), <- app_assoc. reflexivity. }
      assert (Epl : g_row g <> g_col g -> place F (P ++ [x1]) (g_col g) = place F P (g_col g)).
      { intros N. unfold place. rewrite rowcnt_app, rowcnt_cons. unfold frow, x1; simpl.
        destruct (Nat.eqb_spec (g_row g) (g_col g)); [lia|]. change (rowcnt (g_col g) []) with 0. lia. }
      assert (D1 : length a0 <> length P -> place F P (g_row g) <> place F a0 (frow x)).
      { intros N. change (g_row g) with (frow x1).
        destruct (Nat.lt_ge_cases (length a0) (length P)).
        - apply not_eq_sym. eapply place_inj; [exact EX|exact EF1|auto].
        - eapply place_inj; [exact EF1|exact EX|lia]. }
      assert (D2 : g_row g <> g_col g -> length a0 <> length P + 1 -> place F P (g_col g) <> place F a0 (frow x)).
      { intros N1 N. rewrite <- Epl by auto. change (g_col g) with (frow x2).
        assert (length (P ++ [x1]) = length P + 1) by (rewrite app_length; reflexivity).
        destruct (Nat.lt_ge_cases (length a0) (length P + 1)).
        - apply not_eq_sym. eapply place_inj; [exact EX|exact (EF2 N1)|lia].
        - eapply place_inj; [exact (EF2 N1)|exact EX|lia]. }
      assert (NX : nth_error F (length a0) = Some x) by (rewrite EX; apply nth_of_app).
      assert (M1 : length a0 = length P -> a0 = P /\ x = x1).
      { intros L.
        assert (X : a0 ++ x :: b0 = P ++ x1 :: (if g_row g =? g_col g then [] else [x2]) ++ fents Gs2) by congruence.
        apply (f_equal (firstn (length a0))) in X as X1.
        rewrite firstn_app, Nat.sub_diag, firstn_all in X1. rewrite L, firstn_app, Nat.sub_diag, firstn_all in X1.
        simpl in X1. rewrite !app_nil_r in X1. split; auto. subst a0. apply app_inv_head in X. congruence. }
      assert (M2 : g_row g <> g_col g -> length a0 = length P + 1 -> a0 = P ++ [x1] /\ x = x2).
      { intros N L.
        assert (X : a0 ++ x :: b0 = (P ++ [x1]) ++ x2 :: fents Gs2) by (rewrite <- EF2; auto).
        assert (L' : length a0 = length (P ++ [x1])) by (rewrite app_length; auto).
        apply (f_equal (firstn (length a0))) in X as X1.
        rewrite firstn_app, Nat.sub_diag, firstn_all in X1. rewrite L', firstn_app, Nat.sub_diag, firstn_all in X1.
        simpl in X1. rewrite !app_nil_r in X1. split; auto. subst a0. apply app_inv_head in X. congruence. }
      assert (Lfe : length (P ++ fe g) = length P + (if g_row g =? g_col g then 1 else 2)).
      { rewrite app_length. unfold fe. simpl. destruct (g_row g =? g_col g); reflexivity. }
      (* contribution of this group *)
      assert (C : map fst (filter (fun d => snd d =? place F a0 (frow x)) (flat_map (dd1 F P g) (g_rest g))) =
        if (length P <=? length a0) && (length a0 <? length (P ++ fe g)) then g_rest (snd x) else []).
      { assert (C1 : forall l, map fst (filter (fun d => snd d =? place F a0 (frow x)) (flat_map (dd1 F P g) l)) =
          if (length P <=? length a0) && (length a0 <? length (P ++ fe g)) then l else []).
        { induction l as [|p l IHl].
          - simpl. destruct (_ && _); reflexivity.
          - change (flat_map (dd1 F P g) (p :: l)) with (dd1 F P g p ++ flat_map (dd1 F P g) l).
            rewrite filter_app, map_app, IHl. unfold dd1.
            assert (Hd : map fst (filter (fun d => snd d =? place F a0 (frow x))
               ((p, place F P (g_row g)) :: (if g_row g =? g_col g then [] else [(p, place F P (g_col g))]))) =
               if (length P <=? length a0) && (length a0 <? length (P ++ fe g)) then [p] else []).
            { rewrite Lfe. destruct (Nat.eqb_spec (g_row g) (g_col g)) as [q|q]; simpl.
              - destruct (Nat.eq_dec (length a0) (length P)) as [L|L].
                + destruct (M1 L) as [-> ->]. change (frow x1) with (g_row g). rewrite Nat.eqb_refl. simpl.
                  rewrite Nat.leb_refl. destruct (Nat.ltb_spec (length P) (length P + 1)); [reflexivity|lia].
                + destruct (Nat.eqb_spec (place F P (g_row g)) (place F a0 (frow x))); [exfalso; apply (D1 L); auto|].
                  destruct (Nat.leb_spec (length P) (length a0)); destruct (Nat.ltb_spec (length a0) (length P + 1));
                    simpl; auto; lia.
              - destruct (Nat.eq_dec (length a0) (length P)) as [L|L].
                + destruct (Nat.eqb_spec (place F P (g_col g)) (place F a0 (frow x))) as [e|e];
                    [exfalso; apply (D2 q ltac:(lia)); auto|].
                  destruct (M1 L) as [-> ->]. change (frow x1) with (g_row g). rewrite Nat.eqb_refl. simpl.
                  rewrite Nat.leb_refl. destruct (Nat.ltb_spec (length P) (length P + 2)); [reflexivity|lia].
                + destruct (Nat.eqb_spec (place F P (g_row g)) (place F a0 (frow x))); [exfalso; apply (D1 L); auto|].
                  destruct (Nat.eq_dec (length a0) (length P + 1)) as [L2|L2].
                  * destruct (M2 q L2) as [-> ->]. change (frow x2) with (g_col g). rewrite (Epl q), Nat.eqb_refl.
                    rewrite app_length. simpl.
                    destruct (Nat.leb_spec (length P) (length P + 1)); destruct (Nat.ltb_spec (length P + 1) (length P + 2));
                      simpl; auto; lia.
                  * destruct (Nat.eqb_spec (place F P (g_col g)) (place F a0 (frow x))); [exfalso; apply (D2 q L2); auto|].
                    destruct (Nat.leb_spec (length P) (length a0)); destruct (Nat.ltb_spec (length a0) (length P + 2));
                      simpl; auto; lia. }
            rewrite Hd. destruct (_ && _); reflexivity. }
        rewrite C1.
        destruct (Nat.leb_spec (length P) (length a0)); destruct (Nat.ltb_spec (length a0) (length (P ++ fe g))); simpl; auto.
        assert (snd x = g); [|congruence].
        rewrite Lfe in *. destruct (Nat.eqb_spec (g_row g) (g_col g)) as [q|q].
        - destruct (M1 ltac:(lia)) as [_ ->]. reflexivity.
        - destruct (Nat.eq_dec (length a0) (length P)).
          + destruct (M1 ltac:(lia)) as [_ ->]. reflexivity.
          + destruct (M2 q ltac:(lia)) as [_ ->]. reflexivity. }
      rewrite C.
      assert (length P < length (P ++ fe g)) by (rewrite Lfe; destruct (g_row g =? g_col g); lia).
      destruct (Nat.leb_spec (length P) (length a0)); destruct (Nat.ltb_spec (length a0) (length (P ++ fe g)));
        destruct (Nat.leb_spec (length (P ++ fe g)) (length a0)); simpl; auto; try lia.
      apply app_nil_r. }
  specialize (HH Gs [] eq_refl). simpl in HH. exact HH.
Qed.

Lemma fullD_bound : forall Gs2 Gs1, Gs1 ++ Gs2 = Gs ->
  Forall (fun d => snd d < length F) (fullD F (fents Gs1) Gs2).
Proof.
  induction Gs2 as [|g Gs2 IH]; intros Gs1 EG; simpl; [constructor|].
  assert (EG' : (Gs1 ++ [g]) ++ Gs2 = Gs) by (rewrite <- app_assoc; auto).
  specialize (IH (Gs1 ++ [g]) EG').
  assert (Efe : fents (Gs1 ++ [g]) = fents Gs1 ++ fe g).
  { rewrite fents_app. unfold fents at 2. simpl. rewrite app_nil_r. reflexivity. }
  rewrite Efe in IH. apply Forall_app; split; auto.
  apply Forall_forall. intros d Hd. apply in_flat_map in Hd. destruct Hd as [p [_ Hd]].
  assert (EF : F = fents Gs1 ++ fe g ++ fents Gs2).
  { unfold F. rewrite <- EG, fents_app. reflexivity. }
  unfold dd1 in Hd. destruct Hd as [<-|Hd].
  - simpl. change (g_row g) with (frow (g_row g, g_col g, g)). eapply place_len. rewrite EF at 1. reflexivity.
  - destruct (Nat.eqb_spec (g_row g) (g_col g)) as [q|q]; [destruct Hd|]. destruct Hd as [<-|[]]. simpl.
    assert (E2 : F = (fents Gs1 ++ [(g_row g, g_col g, g)]) ++ (g_col g, g_row g, g) :: fents Gs2).
    { rewrite EF at 1. rewrite (fe_ne g q), <- app_assoc. reflexivity. }
    pose proof (place_len _ _ _ E2) as PL. unfold frow in PL; simpl in PL.
    unfold place in *. rewrite rowcnt_app in PL. lia.
Qed.

Lemma finish_full_ok : 1 <= dim ->
  exists v, finish_full off dim s = Some v /\ conv_of off dim (fullL dim F) (fullD F [] Gs) v.
Proof.
  intros Hdim. unfold finish_full.
  destruct (aset_ok (anew (dim + 1)) 0 0) as [a0 [E0 [L0 [S0 O0]]]]; [rewrite anew_length; lia|]. rewrite E0.
  rewrite anew_length in L0.
  destruct (aset_ok a0 1 0) as [a1 [E1 [L1 [S1 O1]]]]; [lia|]. rewrite E1.
  destruct (for_loop_inv (S:=arr) (fun i a => length a = dim + 1 /\ has a 0 0 /\
      forall r, 1 <= r <= i -> has a r (rowlt r F))
    (fun i a => x <- aget a i ;; c <- aget (rc_tmp s) (i - 1) ;; aset a (i + 1) (x + c)) (dim - 1) 1 a1)
    as [iat [E2 [L2 [H2 P2]]]].
  { intros i a Hi [La [H0 Pa]].
    rewrite (Pa i ltac:(lia)).
    rewrite (j_rc _ _ _ _ _ INV eq_refl (i - 1) ltac:(lia)).
    replace (i - 1 + 1) with i by lia. fold F. rewrite <- rowlt_S.
    destruct (aset_ok a (i + 1) (rowlt (i + 1) F)) as [a' [Ea [La' [Sa Oa]]]]; [lia|].
    exists a'. split; auto. split; [lia|]. split; [apply Oa; auto; lia|].
    intros r Hr. destruct (Nat.eq_dec r (i + 1)) as [->|N]; auto. apply Oa; auto. apply Pa. lia. }
  { split; [lia|]. split; [apply O1; auto|]. intros r Hr. replace r with 1 by lia.
    rewrite (rowlt_1 F F_ge1). auto. }
  rewrite E2.
  destruct (full_rows_ok (Fst iat (anew (ncf s)) (anew (ncf s)) (anew (idbf s)) (anew (idbf s)) 0 0))
    as [t [E3 HQ]].
  { rewrite (j_ncf _ _ _ _ _ INV eq_refl), (j_idbf _ _ _ _ _ INV eq_refl). fold F.
    constructor; cbn [f_iat f_ja f_ipf f_dt f_dc jd1 jd2]; auto; try apply anew_length.
    - intros r Hr. simpl. unfold place. change (rowcnt (r + 1) []) with 0. rewrite Nat.add_0_r.
      apply P2. lia.
    - intros a x b E. simpl in E. destruct a; discriminate.
    - intros k p q E. destruct k; discriminate. }
  rewrite E3. destruct HQ as [Hliat Hiat0 Hiat Hlja Hlip Hja Hldt Hldc Hjd1 Hjd2 Hd].
  rewrite firstn_all in *. fold F in Hiat, Hja.
  assert (Hiat' : forall k, k <= dim -> has (f_iat t) k (rowlt (k + 1) F)).
  { intros [|k] Hk.
    - simpl. rewrite (rowlt_1 F F_ge1). auto.
    - replace (S k) with (k + 1) by lia. rewrite (rowlt_S (k + 1)). apply Hiat. lia. }
  destruct (acopy_ok (dim + 1) (fun x => x + off) (f_iat t) (ia s)) as [ia1 [E4 [L4 P4]]].
  { rewrite (j_lia _ _ _ _ _ INV). lia. }
  { intros i Hi. exists (rowlt (i + 1) F). apply Hiat'. lia. }
  rewrite E4. eexists. split; [reflexivity|].
  rewrite (j_lia _ _ _ _ _ INV) in L4.
  constructor; cbn [v_ia v_ja v_ipf v_dt v_dc v_nc v_nd].
  - apply arr_ext; auto. intros i Hi. rewrite rowlt_fullL by lia. apply (P4 i (rowlt (i + 1) F)); auto.
    apply Hiat'. lia.
  - apply arr_list; [rewrite fullL_length; auto|]. intros p x Ep.
    destruct (fullL_nth _ _ Ep) as [a [b [EF ->]]]. apply (Hja a x b EF).
  - apply arr_list; [rewrite fullL_length; auto|]. intros p x Ep.
    destruct (fullL_nth _ _ Ep) as [a [b [EF ->]]]. apply (Hja a x b EF).
  - rewrite fullL_length. apply (j_ncf _ _ _ _ _ INV eq_refl).
  - rewrite fullD_length. apply (j_idbf _ _ _ _ _ INV eq_refl).
  - apply arr_list; [rewrite fullD_length; auto|]. intros i [p q] E. apply (Hd _ _ _ E).
  - apply arr_list; [rewrite fullD_length; auto|]. intros i [p q] E. apply (Hd _ _ _ E).
  - intros p x Ep. destruct (fullL_nth _ _ Ep) as [a [b [EF ->]]]. apply (fullD_filter a x b EF).
  - rewrite fullL_length. apply (fullD_bound Gs [] eq_refl).
Qed.

End Loop.
