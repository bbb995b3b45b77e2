(** Writing a list into an array at an offset, and the loops of TripModel in terms of it. *)
From Coq Require Import List Bool Arith Lia.
From Verif Require Import Num VecModel VecSpec VecProofs VecLift ExpModel ExpProofs MatModel MatSpec MatProofs TripModel.
Import ListNotations.
Local Open Scope nat_scope.

Definition blit {A} (p : nat) (l a : list A) : list A := firstn p a ++ l ++ skipn (p + length l) a.
Lemma skipn_add {A} m n (l : list A) : skipn m (skipn n l) = skipn (n + m) l.
Proof. revert l; induction n; intros [|x l]; simpl; auto. apply skipn_nil. Qed.
Lemma blit_len {A} p (l a : list A) : p + length l <= length a -> length (blit p l a) = length a.
Proof. intros H. unfold blit. rewrite !app_length, firstn_length, skipn_length. lia. Qed.
Lemma blit_nil {A} p (a : list A) : blit p [] a = a.
Proof. unfold blit. simpl. rewrite Nat.add_0_r. apply firstn_skipn. Qed.
Lemma blit_all {A} (l a : list A) : length l = length a -> blit 0 l a = l.
Proof. intros H. unfold blit. simpl. rewrite H, skipn_all, app_nil_r. reflexivity. Qed.
Lemma nth_blit {A} p (l a : list A) i d : i < length l -> p + length l <= length a -> nth (p + i) (blit p l a) d = nth i l d.
Proof.
  intros H H2. unfold blit. rewrite app_nth2; rewrite firstn_length; [|lia]. rewrite app_nth1 by lia. f_equal. lia.
Qed.
Lemma nth_error_blit {A} p (l a : list A) i d : i < length l -> p + length l <= length a -> nth_error (blit p l a) (p + i) = Some (nth i l d).
Proof.
  intros H H2. rewrite (nth_error_nth' _ d) by (rewrite blit_len by auto; lia). f_equal. apply nth_blit; auto.
Qed.
Lemma nth_skip {A} n (l : list A) i d : nth i (skipn n l) d = nth (n + i) l d.
Proof. revert l; induction n; intros [|x l]; simpl; auto. destruct i; reflexivity. Qed.
Lemma nth_first {A} n (l : list A) i d : i < n -> nth i (firstn n l) d = nth i l d.
Proof. revert l i; induction n; intros [|x l] [|i] H; simpl; auto; try lia. apply IHn. lia. Qed.
Lemma blit_out {A} p (l a : list A) i d : p + length l <= length a -> i < p \/ p + length l <= i -> nth i (blit p l a) d = nth i a d.
Proof.
  intros H H2. unfold blit. destruct H2 as [H2|H2].
  - rewrite app_nth1 by (rewrite firstn_length; lia). apply nth_first; auto.
  - rewrite app_nth2; rewrite firstn_length; [|lia]. rewrite app_nth2 by lia. rewrite nth_skip. f_equal. lia.
Qed.
Lemma nth_blit_if {A} p (l a : list A) i d : p + length l <= length a ->
  nth i (blit p l a) d = if (p <=? i) && (i <? p + length l) then nth (i - p) l d else nth i a d.
Proof.
  intros H. destruct (Nat.leb_spec p i); simpl; [destruct (Nat.ltb_spec i (p + length l))|]; try (apply blit_out; [auto|lia]).
  replace i with (p + (i - p)) at 1 by lia. apply nth_blit; lia.
Qed.
Lemma blit_app {A} p (l1 l2 a : list A) : p + length l1 + length l2 <= length a -> blit (p + length l1) l2 (blit p l1 a) = blit p (l1 ++ l2) a.
Proof.
  intros H. destruct a as [|d a']; [destruct l1, l2; simpl in *; try lia; destruct p; reflexivity|]. set (a := d :: a') in *.
  apply (nth_ext _ _ d d); [rewrite !blit_len; rewrite ?app_length, ?blit_len; lia|]. intros i _.
  rewrite !nth_blit_if; rewrite ?app_length, ?blit_len; try lia.
  destruct (Nat.leb_spec (p + length l1) i), (Nat.ltb_spec i (p + length l1 + length l2)), (Nat.leb_spec p i), (Nat.ltb_spec i (p + length l1)), (Nat.ltb_spec i (p + (length l1 + length l2))); cbn [andb]; try lia; auto.
  - rewrite app_nth2 by lia. f_equal. lia.
  - rewrite app_nth1 by lia. reflexivity.
Qed.
Lemma upd_blit {A} p x (a : list A) : p < length a -> upd p x a = blit p [x] a.
Proof.
  unfold blit. simpl. revert p; induction a as [|y a IH]; intros [|p] H; simpl in *; try lia; [reflexivity|]. rewrite IH by lia. rewrite Nat.add_succ_r. reflexivity.
Qed.
Lemma wr_blit {A} (a : list A) p x : p < length a -> wr a p x = Some (blit p [x] a).
Proof. intros H. unfold wr. apply Nat.ltb_lt in H. rewrite H. f_equal. apply upd_blit. apply Nat.ltb_lt; auto. Qed.

(** pairs of arrays *)
Definition blit2 (p : nat) (l : list (nat * nat)) (a : arrs) : arrs := (blit p (map fst l) (fst a), blit p (map snd l) (snd a)).

Lemma loop_ext {A} k (f g : nat -> A -> option A) a : (forall i b, i < k -> f i b = g i b) -> loop k f a = loop k g a.
Proof. induction k; intros H; simpl; [reflexivity|]. rewrite IHk by (intros; apply H; lia). destruct (loop k g a); [apply H; lia|reflexivity]. Qed.

Lemma flat_seq_S {B} (L : nat -> list B) k : flat_map L (seq 0 (S k)) = flat_map L (seq 0 k) ++ L k.
Proof. rewrite seq_S, flat_map_app. simpl. rewrite app_nil_r. reflexivity. Qed.
Lemma map_seq_S {B} (g : nat -> B) k : map g (seq 0 (S k)) = map g (seq 0 k) ++ [g k].
Proof. rewrite seq_S, map_app. reflexivity. Qed.
Lemma map_flat_map {A B C} (g : B -> C) (L : A -> list B) l : map g (flat_map L l) = flat_map (fun x => map g (L x)) l.
Proof. induction l; simpl; [reflexivity|]. rewrite map_app, IHl. reflexivity. Qed.
Lemma flat_ext {A B} (f g : A -> list B) l : (forall x, In x l -> f x = g x) -> flat_map f l = flat_map g l.
Proof. induction l; simpl; intros H; [reflexivity|]. rewrite (H a), IHl; auto. Qed.

Section Gen.
Context {St X : Type} (bl : nat -> list X -> St -> St) (sz : St -> nat).
Hypothesis bl_sz : forall p l a, p + length l <= sz a -> sz (bl p l a) = sz a.
Hypothesis bl_nil : forall p a, bl p [] a = a.
Hypothesis bl_app : forall p l1 l2 a, p + length l1 + length l2 <= sz a -> bl (p + length l1) l2 (bl p l1 a) = bl p (l1 ++ l2) a.

(** element by element, at fixed distance *)
Lemma loop_one n (g : nat -> X) body p a : p + n <= sz a ->
  (forall i b, i < n -> sz b = sz a -> body i b = Some (bl (p + i) [g i] b)) ->
  loop n body a = Some (bl p (map g (seq 0 n)) a).
Proof.
  induction n; intros H HB; [simpl; rewrite bl_nil; reflexivity|]. cbn [loop]. rewrite IHn by (auto; lia).
  rewrite HB; [|lia|apply bl_sz; rewrite map_length, seq_length; lia]. f_equal. rewrite map_seq_S.
  rewrite <- bl_app by (rewrite map_length, seq_length; simpl; lia). rewrite map_length, seq_length. reflexivity.
Qed.
(** block by block, with a running pointer *)
Lemma loop_many {A} (mk : nat -> nat -> St -> A) k (L : nat -> list X) body p a : p + length (flat_map L (seq 0 k)) <= sz a ->
  (forall i q b, i < k -> sz b = sz a -> q + length (L i) <= sz a -> body i (mk i q b) = Some (mk (S i) (q + length (L i)) (bl q (L i) b))) ->
  loop k body (mk 0 p a) = Some (mk k (p + length (flat_map L (seq 0 k))) (bl p (flat_map L (seq 0 k)) a)).
Proof.
  induction k; intros H HB; [simpl; rewrite bl_nil, Nat.add_0_r; reflexivity|]. cbn [loop].
  rewrite flat_seq_S, app_length in *. rewrite IHk by (auto; lia).
  rewrite HB; [|lia|apply bl_sz; lia|lia]. rewrite bl_app, Nat.add_assoc by lia. reflexivity.
Qed.
End Gen.

Lemma put_ok {A} n (f : nat -> option A) g p a : p + n <= length a -> (forall i, i < n -> f i = Some (g i)) ->
  put n f p a = Some (blit p (map g (seq 0 n)) a).
Proof.
  intros H F. unfold put. apply (loop_one blit (@length A)); auto using @blit_len, @blit_nil, @blit_app.
  intros i b Hi Hb. rewrite F by auto. cbn [obind]. apply wr_blit. lia.
Qed.
Definition sz2 (a : arrs) : nat := Nat.min (length (fst a)) (length (snd a)).
Lemma blit2_sz p l a : p + length l <= sz2 a -> sz2 (blit2 p l a) = sz2 a.
Proof. unfold sz2, blit2. simpl. intros H. rewrite !blit_len; rewrite ?map_length; lia. Qed.
Lemma blit2_nil p a : blit2 p [] a = a.
Proof. unfold blit2. simpl. rewrite !blit_nil. destruct a; reflexivity. Qed.
Lemma blit2_app p l1 l2 a : p + length l1 + length l2 <= sz2 a -> blit2 (p + length l1) l2 (blit2 p l1 a) = blit2 p (l1 ++ l2) a.
Proof.
  unfold blit2, sz2. simpl. intros H. rewrite !map_app. f_equal; rewrite <- blit_app, map_length; rewrite ?map_length; auto; lia.
Qed.
Lemma put2_ok n f g u v p a : p + n <= sz2 a -> (forall i, i < n -> f i = Some (u i)) -> (forall i, i < n -> g i = Some (v i)) ->
  put2 n f g p a = Some (blit2 p (map (fun i => (u i, v i)) (seq 0 n)) a).
Proof.
  intros H F G. unfold put2. apply (loop_one blit2 sz2); auto using blit2_sz, blit2_nil, blit2_app.
  intros i b Hi Hb. rewrite F, G by auto. cbn [obind]. unfold sz2 in *. rewrite wr_blit by lia. cbn [obind]. rewrite wr_blit by lia. reflexivity.
Qed.

Lemma nth_mix {A} (d : A) i (l' l : list A) r : i <= length l' -> length l = length l' -> r < length l ->
  nth r (firstn i l' ++ skipn i l) d = if r <? i then nth r l' d else nth r l d.
Proof.
  intros H L Hr. destruct (Nat.ltb_spec r i).
  - rewrite app_nth1 by (rewrite firstn_length; lia). apply nth_first; auto.
  - rewrite app_nth2 by (rewrite firstn_length; lia). rewrite firstn_length, nth_skip. f_equal. lia.
Qed.
(** an in-place pass over a segment *)
Lemma loop_inplace {A} (d : A) n (l l' : list A) body p a : length l = n -> length l' = n -> p + n <= length a ->
  (forall i b, i < n -> p + n <= length b -> nth_error b (p + i) = Some (nth i l d) -> body i b = Some (upd (p + i) (nth i l' d) b)) ->
  loop n body (blit p l a) = Some (blit p l' a).
Proof.
  intros L L' H HB.
  assert (K : forall i, i <= n -> loop i body (blit p l a) = Some (blit p (firstn i l' ++ skipn i l) a)).
  { induction i; intros Hi; [reflexivity|]. cbn [loop]. rewrite IHi by lia.
    assert (M : length (firstn i l' ++ skipn i l) = n) by (rewrite app_length, firstn_length, skipn_length; lia).
    rewrite (HB i); [|lia|rewrite blit_len; lia|].
    - f_equal. assert (M2 : length (firstn (S i) l' ++ skipn (S i) l) = n) by (rewrite app_length, firstn_length, skipn_length; lia).
      apply (nth_ext _ _ d d); [rewrite upd_length, !blit_len; lia|]. intros q _.
      assert (N1 : forall r, r < n -> nth r (firstn i l' ++ skipn i l) d = if r <? i then nth r l' d else nth r l d) by (intros; apply nth_mix; lia).
      assert (N2 : forall r, r < n -> nth r (firstn (S i) l' ++ skipn (S i) l) d = if r <? S i then nth r l' d else nth r l d) by (intros; apply nth_mix; lia).
      destruct (Nat.eq_dec (p + i) q) as [<-|N].
      + rewrite nth_upd_same by (rewrite blit_len; lia). rewrite nth_blit by lia. rewrite N2 by lia. destruct (Nat.ltb_spec i (S i)); [reflexivity|lia].
      + rewrite nth_upd_other by auto. rewrite !nth_blit_if, M, M2 by lia. destruct ((p <=? q) && (q <? p + n)) eqn:E; [|reflexivity].
        apply andb_true_iff in E. destruct E as [E1 E2]. apply Nat.leb_le in E1. apply Nat.ltb_lt in E2. rewrite N1, N2 by lia.
        destruct (Nat.ltb_spec (q - p) i), (Nat.ltb_spec (q - p) (S i)); try lia; reflexivity.
    - rewrite (nth_error_blit _ _ _ _ d) by lia. f_equal. rewrite nth_mix by lia. rewrite Nat.ltb_irrefl. reflexivity. }
  rewrite K by lia. rewrite <- L' at 1. rewrite firstn_all, skipn_all2 by lia. rewrite app_nil_r. reflexivity.
Qed.
