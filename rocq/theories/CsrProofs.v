(** Phase 1 of the converter: grouping of the sorted triplets. *)
From Coq Require Import List Arith Bool Lia Permutation Sorted.
From Verif Require Import CsrModel CsrSpec.
Import ListNotations.

(** ** Arrays *)
Definition has (a : arr) (i x : nat) : Prop := aget a i = Some x.

Lemma upd_length {A} (l : list A) i x : length (upd l i x) = length l.
Proof. revert i; induction l as [|y l IH]; intros [|i]; simpl; auto. Qed.

Lemma nth_upd_same {A} (l : list A) i x : i < length l -> nth_error (upd l i x) i = Some x.
Proof. revert i; induction l as [|y l IH]; intros [|i] H; simpl in *; try lia; auto. apply IH; lia. Qed.

Lemma nth_upd_other {A} (l : list A) i j x : i <> j -> nth_error (upd l i x) j = nth_error l j.
Proof. revert i j; induction l as [|y l IH]; intros [|i] [|j] H; simpl in *; try lia; auto. Qed.

Lemma aset_ok a i x : i < length a ->
  exists a', aset a i x = Some a' /\ length a' = length a /\ has a' i x /\
             (forall j y, j <> i -> has a j y -> has a' j y).
Proof.
  intros H. unfold aset. destruct (Nat.ltb_spec i (length a)); [|lia].
  exists (upd a i (Some x)). split; [reflexivity|]. split; [apply upd_length|]. split.
  - unfold has, aget. rewrite nth_upd_same; auto.
  - intros j y Hj Hh. unfold has, aget in *. rewrite nth_upd_other; auto.
Qed.

Lemma ainc_ok a i v : has a i v ->
  exists a', ainc a i = Some a' /\ length a' = length a /\ has a' i (S v) /\
             (forall j y, j <> i -> has a j y -> has a' j y).
Proof.
  intros H. unfold ainc. rewrite H. apply aset_ok.
  unfold has, aget in H. destruct (nth_error a i) eqn:E; [|discriminate].
  apply nth_error_Some. congruence.
Qed.

Lemma has_lt a i x : has a i x -> i < length a.
Proof.
  unfold has, aget. intros H. destruct (nth_error a i) eqn:E; [|discriminate].
  apply nth_error_Some. congruence.
Qed.

Lemma anew_length n : length (anew n) = n.
Proof. apply repeat_length. Qed.

Lemma nth_error_ext {A} (l l' : list A) : (forall i, nth_error l i = nth_error l' i) -> l = l'.
Proof.
  revert l'; induction l as [|x l IH]; intros [|y l'] H; auto.
  - specialize (H 0); discriminate.
  - specialize (H 0); discriminate.
  - f_equal; [specialize (H 0); simpl in H; congruence|]. apply IH. intros i. apply (H (S i)).
Qed.

Lemma arr_ext a n f : length a = n -> (forall i, i < n -> has a i (f i)) ->
  a = map Some (map f (seq 0 n)).
Proof.
  intros Hl H. apply nth_error_ext. intros i.
  destruct (Nat.lt_ge_cases i n) as [L|L].
  - specialize (H i L). unfold has, aget in H.
    rewrite nth_error_map, nth_error_map.
    assert (E : nth_error (seq 0 n) i = Some i).
    { rewrite (nth_error_nth' _ 0) by (rewrite seq_length; lia). rewrite seq_nth by lia. reflexivity. }
    rewrite E. simpl. destruct (nth_error a i) as [[x|]|]; congruence.
  - rewrite (proj2 (nth_error_None a i)) by lia. symmetry. apply nth_error_None.
    rewrite !map_length, seq_length. lia.
Qed.

Lemma map_seq_nth {A B} (f : A -> B) (l : list A) (d : A) :
  map (fun i => f (nth i l d)) (seq 0 (length l)) = map f l.
Proof.
  induction l as [|x l IH]; [reflexivity|]. simpl. f_equal.
  rewrite <- seq_shift, map_map. exact IH.
Qed.

Lemma arr_list {A} a (f : A -> nat) (l : list A) : length a = length l ->
  (forall i x, nth_error l i = Some x -> has a i (f x)) -> a = map Some (map f l).
Proof.
  intros Hl H. destruct l as [|d l'].
  - destruct a; [reflexivity|discriminate].
  - rewrite (arr_ext a (length (d :: l')) (fun i => f (nth i (d :: l') d))); auto.
    + f_equal. apply map_seq_nth.
    + intros i Hi. apply H. apply nth_error_nth'. lia.
Qed.

Lemma for_loop_inv {S} (P : nat -> S -> Prop) f n : forall i0 s,
  (forall i s, i0 <= i < i0 + n -> P i s -> exists s', f i s = Some s' /\ P (Datatypes.S i) s') ->
  P i0 s -> exists s', for_loop n i0 f s = Some s' /\ P (i0 + n) s'.
Proof.
  induction n as [|n IH]; intros i0 s Hf H0; simpl.
  - exists s. rewrite Nat.add_0_r. auto.
  - destruct (Hf i0 s) as [s1 [E1 H1]]; [lia|auto|]. rewrite E1.
    destruct (IH (Datatypes.S i0) s1) as [s2 [E2 H2]]; auto.
    + intros i s' Hi. apply Hf. lia.
    + exists s2. split; auto. replace (i0 + Datatypes.S n) with (Datatypes.S i0 + n) by lia. auto.
Qed.

Lemma acopy_ok n f src dst : n <= length dst ->
  (forall i, i < n -> exists x, has src i x) ->
  exists a, acopy n f src dst = Some a /\ length a = length dst /\
            (forall i x, i < n -> has src i x -> has a i (f x)).
Proof.
  intros Hl Hs. unfold acopy.
  destruct (for_loop_inv (fun i a => length a = length dst /\
      forall k x, k < i -> has src k x -> has a k (f x))
    (fun i d => x <- aget src i ;; aset d i (f x)) n 0 dst) as [a [E [H1 H2]]].
  - intros i s Hi [L H]. destruct (Hs i) as [x Hx]; [lia|]. rewrite Hx.
    destruct (aset_ok s i (f x)) as [a' [E [L' [Hi' Ho]]]]; [lia|].
    exists a'. rewrite E. split; auto. split; [lia|]. intros k y Hk Hy.
    destruct (Nat.eq_dec k i) as [->|N].
    + unfold has in Hx, Hy. rewrite Hx in Hy. injection Hy as <-. auto.
    + apply Ho; auto. apply H; auto. lia.
  - split; auto. intros; lia.
  - exists a. simpl in *. auto.
Qed.

(** ** Groups of equal positions *)
Record grp := Grp { g_row : nat; g_col : nat; g_first : nat; g_rest : list nat }.

Definition ents (g : grp) : list entry :=
  Entry (g_row g) (g_col g) (g_first g) :: map (Entry (g_row g) (g_col g)) (g_rest g).

Fixpoint dbls (k : nat) (Gs : list grp) : list (nat * nat) :=
  match Gs with
  | [] => []
  | g :: r => map (fun p => (p, k)) (g_rest g) ++ dbls (S k) r
  end.

Definition glt (a b : grp) : Prop :=
  g_row a < g_row b \/ (g_row a = g_row b /\ g_col a < g_col b).

Definition cnt_le (r : nat) (Gs : list grp) : nat :=
  length (filter (fun g => g_row g <=? r) Gs).

(** full entries: row, column, group *)
Definition fe (g : grp) : list (nat * nat * grp) :=
  (g_row g, g_col g, g) :: (if g_row g =? g_col g then [] else [(g_col g, g_row g, g)]).
Definition fents (Gs : list grp) := flat_map fe Gs.
Definition frow (x : nat * nat * grp) := fst (fst x).
Definition fcol (x : nat * nat * grp) := snd (fst x).
Definition rowcnt (r : nat) (l : list (nat * nat * grp)) : nat :=
  length (filter (fun x => frow x =? r) l).
Definition dfull (Gs : list grp) : nat :=
  list_sum (map (fun g => length (g_rest g) * (if g_row g =? g_col g then 1 else 2)) Gs).

Lemma dbls_app k a b : dbls k (a ++ b) = dbls k a ++ dbls (k + length a) b.
Proof.
  revert k; induction a as [|g a IH]; intros k; simpl.
  - rewrite Nat.add_0_r. reflexivity.
  - rewrite IH, <- app_assoc. do 2 f_equal. f_equal. lia.
Qed.

Lemma cnt_le_app r a b : cnt_le r (a ++ b) = cnt_le r a + cnt_le r b.
Proof. unfold cnt_le. rewrite filter_app, app_length. reflexivity. Qed.

Lemma rowcnt_app r a b : rowcnt r (a ++ b) = rowcnt r a + rowcnt r b.
Proof. unfold rowcnt. rewrite filter_app, app_length. reflexivity. Qed.

Lemma fents_app a b : fents (a ++ b) = fents a ++ fents b.
Proof. unfold fents. apply flat_map_app. Qed.

Lemma dfull_app a b : dfull (a ++ b) = dfull a + dfull b.
Proof. unfold dfull. rewrite map_app, list_sum_app. reflexivity. Qed.

Lemma cnt_le_all r Gs : Forall (fun g => g_row g <= r) Gs -> cnt_le r Gs = length Gs.
Proof.
  intros H. unfold cnt_le. f_equal. induction H as [|g l Hg Hl IH]; simpl; auto.
  destruct (Nat.leb_spec (g_row g) r); [|lia]. rewrite IH. auto.
Qed.

Lemma dbls_ents k Gs : length (dbls k Gs) + length Gs = length (flat_map ents Gs).
Proof.
  revert k; induction Gs as [|g r IH]; intros k; simpl; auto.
  rewrite !app_length, !map_length, <- (IH (S k)). lia.
Qed.

(** Strictly sorted by position *)
Definition gsorted (Gs : list grp) : Prop := StronglySorted glt Gs.

Definition gok (dim : nat) (g : grp) : Prop :=
  1 <= g_row g /\ g_row g <= g_col g /\ g_col g <= dim.

Lemma SS_app_inv {A} (R : A -> A -> Prop) a b : StronglySorted R (a ++ b) ->
  StronglySorted R a /\ StronglySorted R b /\ (forall x y, In x a -> In y b -> R x y).
Proof.
  induction a as [|x a IH]; simpl; intros H.
  - split; [constructor|]. split; auto. intros ? ? [].
  - inversion H as [|? ? H1 H2]; subst. destruct (IH H1) as [I1 [I2 I3]].
    rewrite Forall_forall in H2. split; [|split; auto].
    + constructor; auto. apply Forall_forall. intros y Hy. apply H2. apply in_or_app; auto.
    + intros u v [<-|Hu] Hv; [apply H2; apply in_or_app; auto|auto].
Qed.

Lemma SS_app {A} (R : A -> A -> Prop) a b :
  StronglySorted R a -> StronglySorted R b -> (forall x y, In x a -> In y b -> R x y) ->
  StronglySorted R (a ++ b).
Proof.
  intros Ha Hb H. induction Ha as [|x a Ha IH Hx]; simpl; auto.
  constructor.
  - apply IH. intros; apply H; simpl; auto.
  - apply Forall_app; split; auto. apply Forall_forall. intros y Hy. apply H; simpl; auto.
Qed.

(** ** Invariant of the entry loop *)
Record inv1 (hf : trifull) (dim nz : nat) (Gs : list grp) (s : st) : Prop := {
  i_lja : length (ja_tmp s) = nz;
  i_lip : length (ipf_tmp s) = nz;
  i_ldt : length (dt_tmp s) = nz;
  i_ldc : length (dc_tmp s) = nz;
  i_lia : length (ia s) = dim + 1;
  i_lrc : is_full hf = true -> length (rc_tmp s) = dim + 1;
  i_nc : nc s + 1 = length Gs;
  i_cur : exists G' g, Gs = G' ++ [g] /\ cur s = g_row g;
  i_ja : forall k g, nth_error Gs k = Some g -> has (ja_tmp s) k (g_col g) /\ has (ipf_tmp s) k (g_first g);
  i_idb : idb s = length (dbls 0 Gs);
  i_d : forall k p q, nth_error (dbls 0 Gs) k = Some (p, q) -> has (dt_tmp s) k p /\ has (dc_tmp s) k q;
  i_ia : forall k, k < cur s -> has (ia s) k (cnt_le k Gs);
  i_ncf : is_full hf = true -> ncf s = length (fents Gs);
  i_idbf : is_full hf = true -> idbf s = dfull Gs;
  i_rc : is_full hf = true -> forall r, r < dim + 1 -> has (rc_tmp s) r (rowcnt (r + 1) (fents Gs))
}.

Lemma last_nth {A} (G' : list A) g : nth_error (G' ++ [g]) (length G') = Some g.
Proof. rewrite nth_error_app2, Nat.sub_diag by lia. reflexivity. Qed.

Lemma nth_snoc {A} (l : list A) x k y : nth_error (l ++ [x]) k = Some y ->
  (k < length l /\ nth_error l k = Some y) \/ (k = length l /\ y = x).
Proof.
  intros H. destruct (Nat.lt_ge_cases k (length l)) as [L|L].
  - rewrite nth_error_app1 in H by lia. auto.
  - rewrite nth_error_app2 in H by lia. right.
    destruct (k - length l) as [|m] eqn:E; simpl in H.
    + injection H as <-. split; [lia|auto].
    + destruct m; discriminate.
Qed.

Lemma fe_eq g : g_row g = g_col g -> fe g = [(g_row g, g_col g, g)].
Proof. intros E. unfold fe. rewrite (proj2 (Nat.eqb_eq _ _) E). reflexivity. Qed.
Lemma fe_ne g : g_row g <> g_col g -> fe g = [(g_row g, g_col g, g); (g_col g, g_row g, g)].
Proof. intros E. unfold fe. rewrite (proj2 (Nat.eqb_neq _ _) E). reflexivity. Qed.

Lemma rowcnt_cons r x l : rowcnt r (x :: l) = (if frow x =? r then 1 else 0) + rowcnt r l.
Proof. unfold rowcnt. simpl. destruct (frow x =? r); reflexivity. Qed.

(** updating the row counts for one new element *)
Lemma rc_step dim g rc Gs : gok dim g -> length rc = dim + 1 ->
  (forall r, r < dim + 1 -> has rc r (rowcnt (r + 1) (fents Gs))) ->
  forall a b, ((a = g_row g /\ b = g_col g) \/ (a = g_col g /\ b = g_row g)) ->
  exists rc1, ainc rc (a - 1) = Some rc1 /\ length rc1 = dim + 1 /\
   (g_row g = g_col g -> forall r, r < dim + 1 -> has rc1 r (rowcnt (r + 1) (fents (Gs ++ [g])))) /\
   (g_row g <> g_col g -> exists rc2, ainc rc1 (b - 1) = Some rc2 /\ length rc2 = dim + 1 /\
      forall r, r < dim + 1 -> has rc2 r (rowcnt (r + 1) (fents (Gs ++ [g])))).
Proof.
  intros [O1 [O2 O3]] Hl Hrc a b Hab.
  assert (Ha : 1 <= a <= dim) by lia. assert (Hb : 1 <= b <= dim) by lia.
  destruct (ainc_ok _ _ _ (Hrc (a - 1) ltac:(lia))) as [rc1 [E1 [L1 [S1 O]]]].
  exists rc1. split; auto. split; [lia|]. 
  assert (FA : fents (Gs ++ [g]) = fents Gs ++ fe g).
  { rewrite fents_app. unfold fents at 2. simpl. rewrite app_nil_r. auto. }
  split.
  - intros E r Hr. rewrite FA, rowcnt_app, (fe_eq g E), rowcnt_cons. unfold frow; simpl.
    change (rowcnt (r+1) []) with 0.
    destruct (Nat.eqb_spec (g_row g) (r + 1)) as [e|ne].
    + replace r with (a - 1) at 1 by lia.
      replace (rowcnt (r + 1) (fents Gs) + (1 + 0)) with (S (rowcnt (a - 1 + 1) (fents Gs)));
        [auto|]. replace (a - 1 + 1) with (r + 1) by lia. lia.
    + rewrite Nat.add_0_r. apply O; [lia|]. auto.
  - intros NE.
    assert (Hne : b - 1 <> a - 1) by lia.
    assert (H1 : has rc1 (b - 1) (rowcnt (b - 1 + 1) (fents Gs))) by (apply O; auto; apply Hrc; lia).
    destruct (ainc_ok _ _ _ H1) as [rc2 [E2 [L2 [S2 O']]]].
    exists rc2. split; auto. split; [lia|]. intros r Hr.
    rewrite FA, rowcnt_app, (fe_ne g NE), !rowcnt_cons. unfold frow; simpl.
    change (rowcnt (r+1) []) with 0.
    destruct (Nat.eq_dec (r + 1) b) as [eb|nb].
    + replace r with (b - 1) at 1 by lia.
      match goal with |- has _ _ ?x => replace x with (S (rowcnt (b - 1 + 1) (fents Gs))) end; auto.
      replace (b - 1 + 1) with (r + 1) by lia.
      destruct (Nat.eqb_spec (g_row g) (r + 1)); destruct (Nat.eqb_spec (g_col g) (r + 1)); lia.
    + apply O'; [lia|].
      destruct (Nat.eq_dec (r + 1) a) as [ea|na].
      * replace r with (a - 1) at 1 by lia.
        match goal with |- has _ _ ?x => replace x with (S (rowcnt (a - 1 + 1) (fents Gs))) end; auto.
        replace (a - 1 + 1) with (r + 1) by lia.
        destruct (Nat.eqb_spec (g_row g) (r + 1)); destruct (Nat.eqb_spec (g_col g) (r + 1)); lia.
      * apply O; [lia|].
        match goal with |- has _ _ ?x => replace x with (rowcnt (r + 1) (fents Gs)) end; auto.
        destruct (Nat.eqb_spec (g_row g) (r + 1)); destruct (Nat.eqb_spec (g_col g) (r + 1)); lia.
Qed.

Lemma ncf_step Gs g : length (fents (Gs ++ [g])) =
  length (fents Gs) + (if g_row g =? g_col g then 1 else 2).
Proof.
  rewrite fents_app, app_length. unfold fents at 2. simpl. rewrite app_nil_r.
  destruct (g_row g =? g_col g); simpl; lia.
Qed.

(** The first entry *)
Lemma first_entry_inv hf dim nz e : 1 <= nz ->
  1 <= e_row e -> e_row e <= e_col e -> e_col e <= dim ->
  exists s, first_entry hf e (init_st hf dim nz) = Some s /\
    inv1 hf dim nz [Grp (e_row e) (e_col e) (e_pos e) []] s.
Proof.
  intros Hnz H1 H2 H3. set (g := Grp (e_row e) (e_col e) (e_pos e) []).
  unfold first_entry. unfold init_st at 1. simpl ia.
  destruct (for_loop_inv (S:=arr) (fun i a => length a = dim + 1 /\ forall k, k < i - 1 -> has a k 0)
     (fun r a => aset a (r - 1) 0) (e_row e - 1) 1 (anew (dim + 1))) as [ia1 [E1 [L1 P1]]].
  { intros i s Hi [L P]. destruct (aset_ok s (i - 1) 0) as [a' [E [L' [S' O]]]]; [lia|].
    exists a'. split; auto. split; [lia|]. intros k Hk. destruct (Nat.eq_dec k (i - 1)) as [->|N]; auto.
    apply O; auto. apply P. lia. }
  { split; [apply anew_length|]. intros; lia. }
  rewrite E1. clear E1.
  assert (Ec : (if 1 <? e_row e then e_row e else 1) = e_row e)
    by (destruct (Nat.ltb_spec 1 (e_row e)); lia).
  rewrite Ec.
  destruct (aset_ok ia1 (e_row e - 1) 0) as [ia2 [E2 [L2 [S2 O2]]]]; [lia|]. rewrite E2.
  destruct (aset_ok (ja_tmp (init_st hf dim nz)) 0 (e_col e)) as [ja1 [E3 [L3 [S3 O3]]]].
  { unfold init_st; simpl. rewrite anew_length. lia. } rewrite E3.
  destruct (aset_ok (ipf_tmp (init_st hf dim nz)) 0 (e_pos e)) as [ip1 [E4 [L4 [S4 O4]]]].
  { unfold init_st; simpl. rewrite anew_length. lia. } rewrite E4.
  assert (Lj : length ja1 = nz) by (rewrite L3; unfold init_st; simpl; apply anew_length).
  assert (Li : length ip1 = nz) by (rewrite L4; unfold init_st; simpl; apply anew_length).
  assert (Hia : forall k, k < e_row e -> has ia2 k (cnt_le k [g])).
  { intros k Hk. replace (cnt_le k [g]) with 0.
    2: { unfold cnt_le; simpl. destruct (Nat.leb_spec (e_row e) k); [lia|]. reflexivity. }
    destruct (Nat.eq_dec k (e_row e - 1)) as [->|N]; auto. apply O2; auto. apply P1. lia. }
  assert (Hja : forall k h, nth_error [g] k = Some h -> has ja1 k (g_col h) /\ has ip1 k (g_first h)).
  { intros [|k] h E; simpl in E; [|destruct k; discriminate]. injection E as <-. split; auto. }
  destruct hf; simpl is_full; cbv iota.
  - eexists. split; [reflexivity|].
    constructor; cbn [ja_tmp ipf_tmp dt_tmp dc_tmp ia rc_tmp nc cur idb idbf ncf init_st]; auto;
      try (simpl; discriminate); try apply anew_length; try lia.
    + exists [], g. auto.
    + intros k p q E. destruct k; discriminate.
  - simpl rc_tmp. simpl ncf.
    assert (Og : gok dim g) by (unfold gok, g; simpl; lia).
    assert (Hrc0 : forall r, r < dim + 1 -> has (repeat (Some 0) (dim + 1)) r (rowcnt (r + 1) (fents []))).
    { intros r Hr. unfold has, aget. change (rowcnt (r+1) (fents [])) with 0.
      rewrite (nth_error_nth' _ (Some 0)) by (rewrite repeat_length; lia).
      rewrite nth_repeat. reflexivity. }
    destruct (rc_step dim g _ [] Og (repeat_length _ _) Hrc0 (e_row e) (e_col e)) as [rc1 [R1 [R2 [R3 R4]]]];
      [left; auto|].
    rewrite R1.
    destruct (Nat.eqb_spec (e_row e) (e_col e)) as [q|q]; simpl negb; cbv iota.
    + specialize (R3 q). eexists. split; [reflexivity|].
      constructor; cbn [ja_tmp ipf_tmp dt_tmp dc_tmp ia rc_tmp nc cur idb idbf ncf init_st]; auto;
        try apply anew_length; try lia.
      * exists [], g. auto.
      * intros k p q' E. destruct k; discriminate.
      * intros _. change [g] with ([] ++ [g]). rewrite ncf_step. simpl.
        rewrite (proj2 (Nat.eqb_eq _ _) q). reflexivity.
    + destruct (R4 q) as [rc2 [R5 [R6 R7]]]. rewrite R5.
      eexists. split; [reflexivity|].
      constructor; cbn [ja_tmp ipf_tmp dt_tmp dc_tmp ia rc_tmp nc cur idb idbf ncf init_st]; auto;
        try apply anew_length; try lia.
      * exists [], g. auto.
      * intros k p q' E. destruct k; discriminate.
      * intros _. change [g] with ([] ++ [g]). rewrite ncf_step. simpl.
        rewrite (proj2 (Nat.eqb_neq _ _) q). reflexivity.
Qed.

(** One further entry: repeated position *)
Lemma next_entry_dup hf dim nz G' g s p :
  inv1 hf dim nz (G' ++ [g]) s ->
  length (flat_map ents (G' ++ [g])) < nz ->
  exists s', next_entry hf (Entry (g_row g) (g_col g) p) s = Some s' /\
    inv1 hf dim nz (G' ++ [Grp (g_row g) (g_col g) (g_first g) (g_rest g ++ [p])]) s'.
Proof.
  intros I Hn. destruct I.
  destruct i_cur0 as [G1 [g1 [EG Ec]]]. apply app_inj_tail in EG. destruct EG as [<- <-].
  set (g' := Grp (g_row g) (g_col g) (g_first g) (g_rest g ++ [p])).
  assert (En : nc s = length G') by (rewrite app_length in i_nc0; simpl in i_nc0; lia).
  assert (Hc : has (ja_tmp s) (nc s) (g_col g)).
  { apply (i_ja0 (nc s) g). rewrite En. apply last_nth. }
  unfold next_entry. simpl e_row. simpl e_col. simpl e_pos. rewrite Ec, Nat.eqb_refl.
  rewrite Hc, Nat.eqb_refl. 
  assert (Hd : idb s < nz).
  { pose proof (dbls_ents 0 (G' ++ [g])). lia. }
  destruct (aset_ok (dt_tmp s) (idb s) p) as [dt1 [E1 [L1 [S1 O1]]]]; [lia|]. rewrite E1.
  destruct (aset_ok (dc_tmp s) (idb s) (nc s)) as [dc1 [E2 [L2 [S2 O2]]]]; [lia|]. rewrite E2.
  assert (ED : dbls 0 (G' ++ [g']) = dbls 0 (G' ++ [g]) ++ [(p, nc s)]).
  { rewrite !dbls_app. simpl. rewrite !app_nil_r, map_app, <- app_assoc, En. reflexivity. }
  assert (EF : forall r, rowcnt r (fents (G' ++ [g'])) = rowcnt r (fents (G' ++ [g]))).
  { intros r. rewrite !fents_app, !rowcnt_app. f_equal. unfold fents; simpl. rewrite !app_nil_r.
    unfold fe, g'; simpl. rewrite !rowcnt_cons. unfold frow; simpl. f_equal.
    destruct (g_row g =? g_col g); [reflexivity|]. rewrite !rowcnt_cons. reflexivity. }
  eexists. split; [reflexivity|].
  constructor; cbn [ja_tmp ipf_tmp dt_tmp dc_tmp ia rc_tmp nc cur idb idbf ncf init_st]; auto; try lia.
  - rewrite app_length in *; simpl in *. lia.
  - exists G', g'. auto.
  - intros k h E. apply nth_snoc in E. destruct E as [[L E]|[-> ->]].
    + apply (i_ja0 k h). rewrite nth_error_app1 by lia. auto.
    + apply (i_ja0 (length G') g). apply last_nth.
  - rewrite ED, app_length. simpl. lia.
  - intros k a b E. rewrite ED in E. apply nth_snoc in E. destruct E as [[L E]|[-> E]].
    + destruct (i_d0 _ _ _ E) as [X Y]. split; [apply O1|apply O2]; auto; lia.
    + injection E as -> ->. rewrite <- i_idb0. auto.
  - intros k Hk. replace (cnt_le k (G' ++ [g'])) with (cnt_le k (G' ++ [g])); [apply i_ia0; lia|].
    rewrite !cnt_le_app. f_equal. unfold cnt_le, g'; simpl. destruct (g_row g <=? k); reflexivity.
  - intros F. rewrite ncf_step. rewrite (i_ncf0 F), ncf_step. reflexivity.
  - intros F. rewrite F, (i_idbf0 F), !dfull_app. unfold dfull; simpl.
    rewrite app_length. simpl. destruct (g_row g =? g_col g); simpl; lia.
  - intros F r Hr. rewrite EF. auto.
Qed.

(** One further entry: new position *)
Lemma next_entry_new hf dim nz G' g s e :
  inv1 hf dim nz (G' ++ [g]) s ->
  length (flat_map ents (G' ++ [g])) < nz ->
  Forall (fun h => g_row h <= g_row g) (G' ++ [g]) ->
  1 <= e_row e -> e_row e <= e_col e -> e_col e <= dim ->
  (e_row e, e_col e) <> (g_row g, g_col g) ->
  e_row e = g_row g \/ e_row e = g_row g + 1 ->
  exists s', next_entry hf e s = Some s' /\
    inv1 hf dim nz ((G' ++ [g]) ++ [Grp (e_row e) (e_col e) (e_pos e) []]) s'.
Proof.
  intros I Hn Hrows He1 He2 He3 Hne Hadj. destruct I.
  destruct i_cur0 as [G1 [g1 [EG Ec]]]. apply app_inj_tail in EG. destruct EG as [<- <-].
  set (Gs := G' ++ [g]) in *.
  set (g' := Grp (e_row e) (e_col e) (e_pos e) []).
  assert (En : nc s = length G') by (unfold Gs in i_nc0; rewrite app_length in i_nc0; simpl in i_nc0; lia).
  assert (Hc : has (ja_tmp s) (nc s) (g_col g)).
  { apply (i_ja0 (nc s) g). rewrite En. apply last_nth. }
  assert (Hsz : length Gs < nz) by (pose proof (dbls_ents 0 Gs); lia).
  unfold next_entry.
  assert (Erep : (if cur s =? e_row e then c <- aget (ja_tmp s) (nc s);; Some (c =? e_col e) else Some false)
                 = Some false).
  { destruct (Nat.eqb_spec (cur s) (e_row e)) as [q|q]; auto. rewrite Hc.
    destruct (Nat.eqb_spec (g_col g) (e_col e)) as [q2|q2]; auto. exfalso. apply Hne. f_equal; lia. }
  rewrite Erep.
  assert (Og : gok dim g') by (unfold gok, g'; simpl; lia).
  assert (Hrcs : exists ncf1 rc1,
     (if is_full hf then
         rc1 <- ainc (rc_tmp s) (e_col e - 1) ;;
         if negb (e_row e =? e_col e) then
           rc2 <- ainc rc1 (e_row e - 1) ;; Some (ncf s + 1 + 1, rc2)
         else Some (ncf s + 1, rc1)
       else Some (ncf s, rc_tmp s)) = Some (ncf1, rc1) /\
     (is_full hf = true -> length rc1 = dim + 1 /\ ncf1 = length (fents (Gs ++ [g'])) /\
        forall r, r < dim + 1 -> has rc1 r (rowcnt (r + 1) (fents (Gs ++ [g']))))).
  { destruct (is_full hf); [|do 2 eexists; split; [reflexivity|discriminate]].
    destruct (rc_step dim g' _ Gs Og (i_lrc0 eq_refl) (i_rc0 eq_refl) (e_col e) (e_row e))
      as [rc1 [R1 [R2 [R3 R4]]]]; [right; auto|].
    rewrite R1. pose proof (ncf_step Gs g') as NS. simpl in NS. rewrite <- (i_ncf0 eq_refl) in NS.
    destruct (Nat.eqb_spec (e_row e) (e_col e)) as [q|q]; simpl negb; cbv iota.
    - do 2 eexists. split; [reflexivity|]. intros _. split; auto.
    - destruct (R4 q) as [rc2 [R5 [R6 R7]]]. rewrite R5.
      do 2 eexists. split; [reflexivity|]. intros _. split; auto. split; auto. lia. }
  destruct Hrcs as [ncf1 [rc1 [Ercs Hrcs]]]. rewrite Ercs. clear Ercs.
  assert (En1 : nc s + 1 = length Gs) by lia.
  destruct (aset_ok (ja_tmp s) (nc s + 1) (e_col e)) as [ja1 [E1 [L1 [S1 O1]]]]; [lia|]. rewrite E1.
  destruct (aset_ok (ipf_tmp s) (nc s + 1) (e_pos e)) as [ip1 [E2 [L2 [S2 O2]]]]; [lia|]. rewrite E2.
  assert (Hja : forall k h, nth_error (Gs ++ [g']) k = Some h -> has ja1 k (g_col h) /\ has ip1 k (g_first h)).
  { intros k h E. apply nth_snoc in E. destruct E as [[L E]|[-> ->]].
    - destruct (i_ja0 _ _ E). split; [apply O1|apply O2]; auto; lia.
    - rewrite <- En1. auto. }
  assert (HD : dbls 0 (Gs ++ [g']) = dbls 0 Gs).
  { rewrite dbls_app. simpl. rewrite app_nil_r. reflexivity. }
  assert (HDF : dfull (Gs ++ [g']) = dfull Gs).
  { rewrite dfull_app. unfold dfull at 2; simpl. lia. }
  destruct (Nat.eqb_spec (cur s) (e_row e)) as [q|q]; simpl negb; cbv iota.
  - eexists. split; [reflexivity|].
    constructor; cbn [ja_tmp ipf_tmp dt_tmp dc_tmp ia rc_tmp nc cur idb idbf ncf init_st]; auto; try lia.
    + intros F. apply Hrcs; auto.
    + rewrite app_length. simpl. lia.
    + exists Gs, g'. split; auto.
    + rewrite HD; auto.
    + rewrite HD; auto.
    + intros k Hk. rewrite cnt_le_app. unfold cnt_le at 2; simpl.
      destruct (Nat.leb_spec (e_row e) k); [lia|]. simpl. rewrite Nat.add_0_r. auto.
    + intros F. apply Hrcs; auto.
    + intros F. rewrite HDF. auto.
    + intros F. apply Hrcs; auto.
  - destruct (aset_ok (ia s) (cur s) (nc s + 1)) as [ia1 [E3 [L3 [S3 O3]]]]; [lia|]. rewrite E3.
    eexists. split; [reflexivity|].
    constructor; cbn [ja_tmp ipf_tmp dt_tmp dc_tmp ia rc_tmp nc cur idb idbf ncf init_st]; auto; try lia.
    + intros F. apply Hrcs; auto.
    + rewrite app_length. simpl. lia.
    + exists Gs, g'. split; auto. simpl. lia.
    + rewrite HD; auto.
    + rewrite HD; auto.
    + intros k Hk. rewrite cnt_le_app. unfold cnt_le at 2; simpl.
      destruct (Nat.leb_spec (e_row e) k); [lia|]. simpl. rewrite Nat.add_0_r.
      destruct (Nat.eq_dec k (cur s)) as [->|N].
      * rewrite cnt_le_all; [rewrite <- En1; auto|]. rewrite Ec. auto.
      * apply O3; auto. apply i_ia0. lia.
    + intros F. apply Hrcs; auto.
    + intros F. rewrite HDF. auto.
    + intros F. apply Hrcs; auto.
Qed.

(** Not descending by position: what std::sort guarantees *)
Definition nodesc (a b : entry) : Prop := e_lt b a = false.
Definition eok (dim : nat) (e : entry) : Prop :=
  1 <= e_row e /\ e_row e <= e_col e /\ e_col e <= dim.
(** rows of consecutive entries differ by at most one *)
Fixpoint nogap (es : list entry) : Prop :=
  match es with
  | e :: ((e' :: _) as r) => e_row e' <= e_row e + 1 /\ nogap r
  | _ => True
  end.

Lemma nodesc_iff a b : nodesc a b <->
  e_row a < e_row b \/ (e_row a = e_row b /\ e_col a <= e_col b).
Proof.
  unfold nodesc, e_lt.
  destruct (Nat.ltb_spec (e_row b) (e_row a)); destruct (Nat.eqb_spec (e_row b) (e_row a));
    destruct (Nat.ltb_spec (e_col b) (e_col a)); simpl; split; intros; try discriminate; auto; lia.
Qed.

Lemma glt_rows G' g : gsorted (G' ++ [g]) -> Forall (fun h => g_row h <= g_row g) (G' ++ [g]).
Proof.
  intros H. apply SS_app_inv in H. destruct H as [_ [_ H]].
  apply Forall_app; split.
  - apply Forall_forall. intros x Hx. destruct (H x g Hx (or_introl eq_refl)); lia.
  - constructor; auto.
Qed.

Lemma gsorted_glt_all G' g h : gsorted (G' ++ [g]) -> glt g h -> gsorted ((G' ++ [g]) ++ [h]).
Proof.
  intros H Hg. apply SS_app; auto; [repeat constructor|].
  intros x y Hx [<-|[]]. apply in_app_or in Hx. destruct Hx as [Hx|[<-|[]]]; auto.
  apply SS_app_inv in H. destruct H as [_ [_ H]]. specialize (H x g Hx (or_introl eq_refl)).
  unfold glt in *. lia.
Qed.

Lemma entries_loop_inv hf dim nz : forall es G' g s,
  inv1 hf dim nz (G' ++ [g]) s -> gsorted (G' ++ [g]) -> Forall (gok dim) (G' ++ [g]) ->
  length (flat_map ents (G' ++ [g])) + length es <= nz ->
  Forall (eok dim) es ->
  StronglySorted nodesc (Entry (g_row g) (g_col g) (g_first g) :: es) ->
  nogap (Entry (g_row g) (g_col g) (g_first g) :: es) ->
  exists s' Gs, entries_loop hf es s = Some s' /\ inv1 hf dim nz Gs s' /\ gsorted Gs /\
    Forall (gok dim) Gs /\ flat_map ents Gs = flat_map ents (G' ++ [g]) ++ es.
Proof.
  induction es as [|e es IH]; intros G' g s I GS GO Hn EO SS NG.
  - exists s, (G' ++ [g]). rewrite app_nil_r. simpl. auto.
  - simpl in Hn. inversion EO as [|? ? Oe EO']; subst. destruct Oe as [O1 [O2 O3]].
    inversion SS as [|? ? SS' Fe]; subst. inversion Fe as [|? ? De _]; subst.
    apply nodesc_iff in De. simpl in De.
    destruct NG as [NGe NG']. simpl in NGe.
    simpl entries_loop.
    destruct (Nat.eq_dec (e_row e) (g_row g)) as [er|er]; [destruct (Nat.eq_dec (e_col e) (g_col g)) as [ec|ec]|].
    + destruct e as [r c p]; simpl in *; subst r c.
      destruct (next_entry_dup hf dim nz G' g s p I ltac:(lia)) as [s1 [E1 I1]].
      rewrite E1.
      set (g' := Grp (g_row g) (g_col g) (g_first g) (g_rest g ++ [p])) in *.
      assert (EE : flat_map ents (G' ++ [g']) = flat_map ents (G' ++ [g]) ++ [Entry (g_row g) (g_col g) p]).
      { rewrite !flat_map_app. simpl. rewrite !app_nil_r. unfold ents, g'; simpl.
        rewrite map_app, <- app_assoc. reflexivity. }
      destruct (IH G' g' s1) as [s' [Gs [A1 [A2 [A3 [A4 A5]]]]]]; auto.
      * apply SS_app_inv in GS. destruct GS as [X [_ Z]]. apply SS_app; auto; [repeat constructor|].
        intros x y Hx [<-|[]]. specialize (Z x g Hx (or_introl eq_refl)). exact Z.
      * apply Forall_app in GO. destruct GO as [X Y]. apply Forall_app; split; auto.
        inversion Y; subst. constructor; auto.
      * rewrite EE, app_length. simpl. lia.
      * inversion SS' as [|? ? X Y]; subst. constructor; auto.
      * exists s', Gs. split; auto. split; auto. split; auto. split; auto.
        rewrite A5, EE, <- app_assoc. reflexivity.
    + assert (Hnew : (e_row e, e_col e) <> (g_row g, g_col g)) by (intros Q; injection Q; lia).
      destruct (next_entry_new hf dim nz G' g s e I ltac:(lia) (glt_rows _ _ GS) O1 O2 O3 Hnew ltac:(lia))
        as [s1 [E1 I1]].
      rewrite E1.
      set (g' := Grp (e_row e) (e_col e) (e_pos e) []) in *.
      destruct (IH (G' ++ [g]) g' s1) as [s' [Gs [A1 [A2 [A3 [A4 A5]]]]]]; auto.
      * apply gsorted_glt_all; auto. unfold glt, g'; simpl. lia.
      * apply Forall_app; split; auto. constructor; auto. unfold gok, g'; simpl; lia.
      * rewrite flat_map_app, app_length. simpl. lia.
      * destruct e; exact SS'.
      * exists s', Gs. split; auto. split; auto. split; auto. split; auto.
        rewrite A5. rewrite (flat_map_app _ (G' ++ [g])), <- app_assoc. simpl. destruct e; reflexivity.
    + assert (Hnew : (e_row e, e_col e) <> (g_row g, g_col g)) by (intros Q; injection Q; lia).
      destruct (next_entry_new hf dim nz G' g s e I ltac:(lia) (glt_rows _ _ GS) O1 O2 O3 Hnew ltac:(lia))
        as [s1 [E1 I1]].
      rewrite E1.
      set (g' := Grp (e_row e) (e_col e) (e_pos e) []) in *.
      destruct (IH (G' ++ [g]) g' s1) as [s' [Gs [A1 [A2 [A3 [A4 A5]]]]]]; auto.
      * apply gsorted_glt_all; auto. unfold glt, g'; simpl. lia.
      * apply Forall_app; split; auto. constructor; auto. unfold gok, g'; simpl; lia.
      * rewrite flat_map_app, app_length. simpl. lia.
      * destruct e; exact SS'.
      * exists s', Gs. split; auto. split; auto. split; auto. split; auto.
        rewrite A5. rewrite (flat_map_app _ (G' ++ [g])), <- app_assoc. simpl. destruct e; reflexivity.
Qed.

(** ** State after the trailing rows *)
Record inv2 (hf : trifull) (dim nz : nat) (Gs : list grp) (s : st) : Prop := {
  j_nc : nc s = length Gs;
  j_lia : length (ia s) = dim + 1;
  j_ja : forall k g, nth_error Gs k = Some g -> has (ja_tmp s) k (g_col g) /\ has (ipf_tmp s) k (g_first g);
  j_idb : idb s = length (dbls 0 Gs);
  j_d : forall k p q, nth_error (dbls 0 Gs) k = Some (p, q) -> has (dt_tmp s) k p /\ has (dc_tmp s) k q;
  j_ia : forall k, k <= dim -> has (ia s) k (cnt_le k Gs);
  j_ncf : is_full hf = true -> ncf s = length (fents Gs);
  j_idbf : is_full hf = true -> idbf s = dfull Gs;
  j_rc : is_full hf = true -> forall r, r < dim + 1 -> has (rc_tmp s) r (rowcnt (r + 1) (fents Gs))
}.

Lemma finish_ia_inv hf dim nz Gs s : inv1 hf dim nz Gs s -> gsorted Gs -> Forall (gok dim) Gs ->
  exists s', finish_ia dim s = Some s' /\ inv2 hf dim nz Gs s'.
Proof.
  intros I GS GO. destruct I.
  destruct i_cur0 as [G1 [g1 [EG Ec]]].
  assert (Hrows : Forall (fun h => g_row h <= cur s) Gs) by (rewrite Ec; subst Gs; apply glt_rows; auto).
  assert (Hg1 : gok dim g1).
  { rewrite Forall_forall in GO. apply GO. subst Gs. apply in_or_app; simpl; auto. }
  destruct Hg1 as [Ha [Hb Hc]].
  unfold finish_ia.
  destruct (for_loop_inv (S:=arr) (fun i a => length a = dim + 1 /\ forall k, k < i -> has a k (cnt_le k Gs))
     (fun i a => aset a i (nc s + 1)) (dim + 1 - cur s) (cur s) (ia s)) as [ia1 [E1 [L1 P1]]].
  - intros i a Hi [L P]. destruct (aset_ok a i (nc s + 1)) as [a' [E [L' [S' O]]]]; [lia|].
    exists a'. split; auto. split; [lia|]. intros k Hk. destruct (Nat.eq_dec k i) as [->|N].
    + rewrite cnt_le_all; [rewrite <- i_nc0; auto|]. eapply Forall_impl; [|exact Hrows]. simpl; intros; lia.
    + apply O; auto. apply P. lia.
  - split; auto.
  - rewrite E1. eexists. split; [reflexivity|].
    constructor; cbn [ja_tmp ipf_tmp dt_tmp dc_tmp ia rc_tmp nc cur idb idbf ncf]; auto.
    intros k Hk. apply P1. lia.
Qed.

Lemma phase1 hf dim es : es <> [] -> Forall (eok dim) es -> StronglySorted nodesc es -> nogap es ->
  exists s Gs, inv2 hf dim (length es) Gs s /\ gsorted Gs /\ Forall (gok dim) Gs /\
    flat_map ents Gs = es /\
    (forall off, initialize hf off dim es =
      match hf with Triangular => finish_tri off dim (length es) s | Full => finish_full off dim s end).
Proof.
  intros NE EO SS NG. destruct es as [|e r]; [congruence|].
  inversion EO as [|? ? [O1 [O2 O3]] EO']; subst.
  destruct (first_entry_inv hf dim (length (e :: r)) e ltac:(simpl; lia) O1 O2 O3) as [s1 [E1 I1]].
  set (g := Grp (e_row e) (e_col e) (e_pos e) []) in *.
  destruct (entries_loop_inv hf dim (length (e :: r)) r [] g s1) as [s2 [Gs [E2 [I2 [G2 [G3 G4]]]]]]; auto.
  - repeat constructor.
  - repeat constructor; simpl; auto.
  - destruct e; exact SS.
  - destruct (finish_ia_inv _ _ _ _ _ I2 G2 G3) as [s3 [E3 I3]].
    exists s3, Gs. split; auto. split; auto. split; auto. split.
    + rewrite G4. simpl. destruct e; reflexivity.
    + intros off. unfold initialize. rewrite E1, E2, E3. reflexivity.
Qed.
