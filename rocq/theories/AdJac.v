(** Lemmas about the routing of matrix entries. *)
From Coq Require Import List Bool Arith ZArith Lia Sorted.
From Verif Require Import VecModel VecProofs ExpModel ExpSpec ExpProofs ExpProps AdModel AdSpec AdProofs AdMaps.
Import ListNotations.
Set Implicit Arguments.
Local Open Scope nat_scope.

Definition at0 (e : jentry) : nat * nat := (je_row e - 1, je_col e - 1).

Lemma skipn_cons {A} (d : A) k l : k < length l -> skipn k l = nth k l d :: skipn (S k) l.
Proof. revert l; induction k; intros [|a l] H; simpl in *; try lia; auto. apply IHk. lia. Qed.
Lemma combine_skip {A B} (x : A) (xs : list A) (vs : list B) d k : k < length vs -> combine (x :: xs) (skipn k vs) = (x, nth k vs d) :: combine xs (skipn (S k) vs).
Proof. intros H. rewrite (@skipn_cons _ d) by auto. reflexivity. Qed.

Section Gen.
Context {T : Type} (O : nops T).
Notation z0 := (t0 O).
Variables (m n : nat) (rows us : list nat).
Hypothesis PR : positions m rows.
Hypothesis PU : positions n us.

Lemma pos_hit N l r p : positions N l -> p < length l ->
  (posof (compressed_pos N l) r =? -1)%Z = false /\ Z.to_nat (posof (compressed_pos N l) r + 1) - 1 = p \/
  ((posof (compressed_pos N l) r =? -1)%Z = true \/ Z.to_nat (posof (compressed_pos N l) r + 1) - 1 <> p) /\ r <> nth p l 0.
Proof.
  intros P H. destruct (Nat.eq_dec r (nth p l 0)) as [E|E].
  - left. subst r. rewrite posof_in by auto. split; [apply Z.eqb_neq|]; lia.
  - destruct (posof_cases r P) as [(k & K1 & K2 & K3)|[K1 K2]].
    + destruct (Nat.eq_dec k p) as [->|NE]; [congruence|]. right. split; auto. right. rewrite K3. lia.
    + right. split; auto. left. rewrite K2. reflexivity.
Qed.
Lemma pos_hit_b N l r p : positions N l -> p < length l ->
  (posof (compressed_pos N l) r =? -1)%Z = false -> (Z.to_nat (posof (compressed_pos N l) r + 1) - 1 =? p) = (r =? nth p l 0).
Proof.
  intros P H H1. destruct (posof_cases r P) as [(k & K1 & K2 & K3)|[K1 K2]]; [|rewrite K2 in H1; discriminate].
  rewrite K3. replace (Z.to_nat (Z.of_nat k + 1) - 1) with k by lia. apply eq_true_iff_eq. rewrite !Nat.eqb_eq. split; intros E; subst; auto.
  apply (proj1 (NoDup_nth l 0) (proj1 P)); auto.
Qed.
Lemma pos_miss N l r p : positions N l -> p < length l -> (posof (compressed_pos N l) r =? -1)%Z = true -> (r =? nth p l 0) = false.
Proof. intros P H H1. apply posof_nonneg in H1; auto. apply Nat.eqb_neq. intros ->. apply H1. apply nth_In; auto. Qed.

Notation colpos := (Some (compressed_pos n us)).
Notation rp := (compressed_pos m rows).
Lemma select_entries vals p q : p < length rows -> q < length us ->
  forall trip k, k + length trip = length vals ->
  entries (map at0 (select rp colpos k trip)) (map (fun e => nth (je_src e) vals z0) (select rp colpos k trip)) p q =
  entries (map (fun e => (fst e - 1, snd e - 1)) trip) (skipn k vals) (nth p rows 0) (nth q us 0).
Proof.
  intros Hp Hq. induction trip as [|[r c] trip IH]; intros k Hk; [reflexivity|].
  assert (Hk1 : k < length vals) by (cbn [length] in Hk; lia).
  cbn [map fst snd]. unfold entries at 2. rewrite (@combine_skip _ _ _ _ _ z0) by exact Hk1.
  cbn [select]. destruct (posof (compressed_pos n us) (c - 1) =? -1)%Z eqn:EC; [|destruct (posof rp (r - 1) =? -1)%Z eqn:ER].
  - cbn [negb andb filter fst snd]. rewrite (@pos_miss n us (c - 1) q PU Hq EC), andb_false_r. apply IH. cbn [length] in Hk; lia.
  - cbn [negb andb filter fst snd]. rewrite (@pos_miss m rows (r - 1) p PR Hp ER). apply IH. cbn [length] in Hk; lia.
  - cbn [negb andb map]. unfold entries at 1. cbn [combine filter at0 je_row je_col je_src fst snd].
    rewrite (pos_hit_b _ PR Hp ER), (pos_hit_b _ PU Hq EC).
    destruct ((r - 1 =? nth p rows 0) && (c - 1 =? nth q us 0)); cbn [map snd]; [f_equal|]; apply IH; cbn [length] in Hk; lia.
Qed.
Lemma select_range : forall trip k, Forall (fun e => 1 <= je_row e <= length rows /\ 1 <= je_col e <= length us /\ k <= je_src e < k + length trip) (select rp colpos k trip).
Proof.
  induction trip as [|[r c] trip IH]; intros k; [constructor|]. cbn [select].
  assert (W : Forall (fun e => 1 <= je_row e <= length rows /\ 1 <= je_col e <= length us /\ k <= je_src e < k + length ((r, c) :: trip)) (select rp colpos (S k) trip)).
  { eapply Forall_impl; [|apply (IH (S k))]. cbn [length]. cbv beta. intros e. lia. }
  destruct (posof_cases (c - 1) PU) as [(q & Q1 & Q2 & Q3)|[Q1 Q2]]; [rewrite Q3|rewrite Q2; exact W].
  destruct (posof_cases (r - 1) PR) as [(p & P1 & P2 & P3)|[P1 P2]]; [rewrite P3|rewrite P2; cbn [Z.eqb negb]; rewrite andb_false_r; exact W].
  destruct (_ && _); [|exact W]. constructor; [|exact W]. cbn [je_row je_col je_src length]. lia.
Qed.
Lemma select_h_entries vals p q : p < length us -> q < length us ->
  forall trip k, k + length trip = length vals ->
  entries (map at0 (select_h colpos k trip)) (map (fun e => nth (je_src e) vals z0) (select_h colpos k trip)) p q =
  entries (map (fun e => (fst e - 1, snd e - 1)) trip) (skipn k vals) (nth p us 0) (nth q us 0).
Proof.
  intros Hp Hq. induction trip as [|[r c] trip IH]; intros k Hk; [reflexivity|].
  assert (Hk1 : k < length vals) by (cbn [length] in Hk; lia).
  cbn [map fst snd]. unfold entries at 2. rewrite (@combine_skip _ _ _ _ _ z0) by exact Hk1.
  cbn [select_h]. destruct (posof (compressed_pos n us) (r - 1) =? -1)%Z eqn:ER; [|destruct (posof (compressed_pos n us) (c - 1) =? -1)%Z eqn:EC].
  - cbn [negb andb filter fst snd]. rewrite (@pos_miss n us (r - 1) p PU Hp ER). apply IH. cbn [length] in Hk; lia.
  - cbn [negb andb filter fst snd]. rewrite (@pos_miss n us (c - 1) q PU Hq EC), andb_false_r. apply IH. cbn [length] in Hk; lia.
  - cbn [negb andb map]. unfold entries at 1. cbn [combine filter at0 je_row je_col je_src fst snd].
    rewrite (pos_hit_b _ PU Hp ER), (pos_hit_b _ PU Hq EC).
    destruct ((r - 1 =? nth p us 0) && (c - 1 =? nth q us 0)); cbn [map snd]; [f_equal|]; apply IH; cbn [length] in Hk; lia.
Qed.
Lemma select_h_range : forall trip k, Forall (fun e => 1 <= je_row e <= length us /\ 1 <= je_col e <= length us /\ k <= je_src e < k + length trip) (select_h colpos k trip).
Proof.
  induction trip as [|[r c] trip IH]; intros k; [constructor|]. cbn [select_h].
  assert (W : Forall (fun e => 1 <= je_row e <= length us /\ 1 <= je_col e <= length us /\ k <= je_src e < k + length ((r, c) :: trip)) (select_h colpos (S k) trip)).
  { eapply Forall_impl; [|apply (IH (S k))]. cbn [length]. cbv beta. intros e. lia. }
  destruct (posof_cases (r - 1) PU) as [(p & P1 & P2 & P3)|[P1 P2]]; [rewrite P3|rewrite P2; exact W].
  destruct (posof_cases (c - 1) PU) as [(q & Q1 & Q2 & Q3)|[Q1 Q2]]; [rewrite Q3|rewrite Q2; cbn [Z.eqb negb]; rewrite andb_false_r; exact W].
  destruct (_ && _); [|exact W]. constructor; [|exact W]. cbn [je_row je_col je_src length]. lia.
Qed.
(** with all variables kept the column map is the identity *)
Lemma id_positions : positions n (seq 0 n).
Proof. split; [apply seq_NoDup|]. intros p H. apply in_seq in H. lia. Qed.
Lemma posof_id j : j < n -> posof (compressed_pos n (seq 0 n)) j = Z.of_nat j.
Proof. intros H. pose proof (@posof_in n (seq 0 n) j id_positions) as E. rewrite seq_length, seq_nth in E by auto. apply E. auto. Qed.
Lemma select_none : forall trip k, Forall (fun e => snd e - 1 < n) trip -> select rp None k trip = select rp (Some (compressed_pos n (seq 0 n))) k trip.
Proof.
  induction trip as [|[r c] trip IH]; intros k H; [reflexivity|]. inversion H as [|? ? H1 H2]; subst. cbn [snd] in H1. cbn [select].
  rewrite posof_id by auto. replace (Z.of_nat (c - 1) =? -1)%Z with false by (symmetry; apply Z.eqb_neq; lia). cbn [negb andb].
  rewrite IH by auto. destruct (negb _); auto. f_equal. f_equal. lia.
Qed.
Lemma select_h_none : forall trip k, Forall (fun e => fst e - 1 < n /\ snd e - 1 < n) trip -> select_h None k trip = select_h (Some (compressed_pos n (seq 0 n))) k trip.
Proof.
  induction trip as [|[r c] trip IH]; intros k H; [reflexivity|]. inversion H as [|? ? H1 H2]; subst. cbn [snd fst] in H1. destruct H1 as [H0 H1]. cbn [select_h].
  rewrite !posof_id by auto. replace (Z.of_nat (c - 1) =? -1)%Z with false by (symmetry; apply Z.eqb_neq; lia).
  replace (Z.of_nat (r - 1) =? -1)%Z with false by (symmetry; apply Z.eqb_neq; lia). cbn [negb andb].
  rewrite IH by auto. f_equal. f_equal; lia.
Qed.
(** sources of the fixed entries *)
Lemma select_fixed_in : forall trip k e, In e (select_fixed (compressed_pos n us) k trip) <->
  exists i, i < length trip /\ je_src e = k + i /\ (je_row e, je_col e) = nth i trip (0, 0) /\ ~ In (je_col e - 1) us.
Proof.
  induction trip as [|[r c] trip IH]; intros k e; cbn [select_fixed].
  - split; [intros []|]. intros (i & H & _). simpl in H; lia.
  - assert (W : (exists i, i < length trip /\ je_src e = S k + i /\ (je_row e, je_col e) = nth i trip (0, 0) /\ ~ In (je_col e - 1) us) <->
                (exists i, 0 < i < length ((r, c) :: trip) /\ je_src e = k + i /\ (je_row e, je_col e) = nth i ((r, c) :: trip) (0, 0) /\ ~ In (je_col e - 1) us)).
    { split; intros (i & H1 & H2 & H3 & H4).
      - exists (S i). cbn [length nth]. repeat split; auto; lia.
      - destruct i as [|i]; [lia|]. exists i. cbn [length nth] in *. repeat split; auto; lia. }
    destruct (posof (compressed_pos n us) (c - 1) =? -1)%Z eqn:E.
    + apply posof_nonneg in E; auto. cbn [In]. rewrite IH, W. split.
      * intros [<-|(i & H1 & H)]; [exists 0; cbn [length nth je_src je_row je_col]; repeat split; auto; lia|exists i; split; [lia|exact H]].
      * intros (i & H1 & H2 & H3 & H4). destruct i as [|i]; [left|right; exists (S i); repeat split; auto; lia].
        cbn [nth] in H3. injection H3 as E1 E2. destruct e as [es er ec]. cbn [je_src je_row je_col] in *. subst. f_equal. lia.
    + rewrite IH, W. split.
      * intros (i & H1 & H). exists i; split; [lia|exact H].
      * intros (i & H1 & H2 & H3 & H4). destruct i as [|i]; [exfalso|exists (S i); repeat split; auto; lia].
        cbn [nth] in H3. injection H3 as E1 E2. rewrite E2 in H4. apply (posof_nonneg (c - 1) PU) in H4. congruence.
Qed.
End Gen.
