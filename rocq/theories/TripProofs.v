(** The triplet arrays that TripModel produces. *)
From Coq Require Import List Bool Arith Lia.
From Verif Require Import Num VecModel VecSpec VecProofs VecLift ExpModel ExpSpec ExpProofs MatModel MatSpec MatProofs TripModel TripBlit TripSpec.
Import ListNotations.
Local Open Scope nat_scope.

Lemma firstn_add {A} n k (w : list A) : firstn n w ++ firstn k (skipn n w) = firstn (n + k) w.
Proof. revert w; induction n; intros [|x w]; simpl; auto; [apply firstn_nil|]. f_equal. apply IHn. Qed.

Section Trips.
Context {T : Type} (O : nops T).
Variables (junk : nat -> list T) (ijunk : nat -> list nat).
Hypothesis junk_len : forall n, length (junk n) = n.
Hypothesis ijunk_len : forall n, length (ijunk n) = n.
Local Notation z := (t0 O).

(** ** Vectors *)
Lemma fill_vec_ok (v : vec T) : forall s n p a, vok s v -> n = sdim s -> p + n <= length a -> fill_vec n v p a = Some (blit p (contents v) a).
Proof.
  induction v as [m d|l IH] using vec_ind'; intros s n p a H N Hp; inversion H as [? ? Hd|ls ? Hl]; subst.
  - cbn [fill_vec sdim contents] in *. rewrite (put_ok _ _ (fun i => nth i (dden m d) z)); auto.
    + f_equal. f_equal. symmetry. etransitivity; [apply (list_fun z)|]. rewrite dden_length by auto. reflexivity.
    + intros i Hi. unfold delem. destruct (hom d) eqn:E; [rewrite (@hom_nth _ O m d i E Hi); reflexivity|]. unfold dden. rewrite E. unfold aget.
      destruct Hd as (_ & A & _). destruct (A E) as (l & V & L). unfold vlist. rewrite V. apply nth_error_nth'. lia.
  - cbn [fill_vec contents]. clear H. cbn [sdim] in Hp.
    revert p a Hp. induction Hl as [|s v ls l Hv Hl IHl]; intros p a Hp; cbn [map concat].
    + rewrite blit_nil. reflexivity.
    + apply Forall_cons_iff in IH. destruct IH as [Iv Il]. simpl in Hp.
      assert (LV := vok_length _ _ Hv). assert (LC : length (concat (map contents l)) = list_sum (map sdim ls)).
      { apply (vok_length (SC ls) (Comp l)). constructor; auto. }
      rewrite (vok_dim _ _ Hv). rewrite (Iv s (sdim s) p a Hv eq_refl) by lia. cbn [obind].
      rewrite (IHl Il) by (rewrite blit_len; rewrite ?LV; lia). rewrite <- LV, blit_app by lia. reflexivity.
Qed.

Lemma rd_ok {A} (d : A) a p : p < length a -> rd a p = Some (nth p a d).
Proof. intros. apply nth_error_nth'. auto. Qed.
Lemma put_vec_ok (v : vec T) : forall s n p values, target O s v -> n = sdim s -> p + n <= length values ->
  exists v', put_vec junk n values p v = Some v' /\ vok s v' /\ contents v' = firstn n (skipn p values).
Proof.
  induction v as [m d|l IH] using vec_ind'; intros s n p values H N Hp; inversion H as [? ? Hd|ls ? Hl]; subst.
  - cbn [put_vec sdim] in *.
    assert (L : length (vlist (d_values m (junk m) d)) = m).
    { unfold d_values. destruct Hd as [(I1 & I2 & I3)|(jj & ->)].
      - rewrite I1. simpl. destruct (hom d) eqn:E; simpl; [apply repeat_length|]. unfold allocated. destruct (I2 eq_refl) as (l & V & L). simpl. rewrite V. exact L.
      - unfold d_new, vlist; simpl. destruct (Nat.eqb_spec m 0) as [->|]; simpl; [reflexivity|apply junk_len]. }
    rewrite (put_ok _ _ (fun i => nth (p + i) values z)); [|lia|intros; apply rd_ok; lia]. cbn [obind]. eexists. split; [reflexivity|].
    assert (E : blit 0 (map (fun i => nth (p + i) values z) (seq 0 m)) (vlist (d_values m (junk m) d)) = firstn m (skipn p values)).
    { rewrite blit_all by (rewrite map_length, seq_length; auto).
      apply (nth_ext _ _ z z); [rewrite map_length, seq_length, firstn_length, skipn_length; lia|].
      intros i Hi. rewrite map_length, seq_length in Hi. rewrite nth_first, nth_skip by auto. rewrite (@nth_map' _ _ _ i 0) by (rewrite seq_length; auto). rewrite seq_nth by auto. reflexivity. }
    rewrite E. split; [|reflexivity]. constructor. unfold with_values.
    split; [reflexivity|]. simpl. assert (F : length (firstn m (skipn p values)) = m) by (rewrite firstn_length, skipn_length; lia).
    split; [intros _; eexists; split; [reflexivity|auto]|intros l E2; injection E2; intros <-; auto].
  - cbn [put_vec]. clear H. cbn [sdim] in *.
    set (go := fix go (l : list (vec T)) (p : nat) {struct l} : option (list (vec T)) :=
         match l with
         | [] => Some []
         | w :: l => obind (put_vec junk (dim w) values p w) (fun w' => obind (go l (p + dim w)) (fun l' => Some (w' :: l')))
         end).
    cut (exists l', go l p = Some l' /\ Forall2 vok ls l' /\ concat (map contents l') = firstn (list_sum (map sdim ls)) (skipn p values)).
    { intros (l' & -> & A & B). cbn [obind]. eexists. split; [reflexivity|]. split; [constructor; auto|exact B]. }
    assert (TD : forall s v, target O s v -> dim v = sdim s).
    { clear. intros s v. revert s. induction v as [m d|l IH] using vec_ind'; intros s H; inversion H as [|ls ? Hl]; subst; cbn [dim sdim]; [reflexivity|].
      f_equal. clear H. induction Hl; simpl; [reflexivity|]. apply Forall_cons_iff in IH. destruct IH as [I1 I2]. f_equal; auto. }
    revert p Hp. induction Hl as [|s v ls l Hv Hl IHl]; intros p Hp; cbn [map concat list_sum fold_right] in *.
    + exists []. repeat split; auto.
    + apply Forall_cons_iff in IH. destruct IH as [Iv Il]. change (fold_right Init.Nat.add 0 (map sdim ls)) with (list_sum (map sdim ls)) in *.
      destruct (Iv s (sdim s) p values Hv eq_refl ltac:(lia)) as (v' & E & V & C). destruct (IHl Il (p + sdim s) ltac:(lia)) as (l' & E2 & V2 & C2).
      exists (v' :: l'). cbn [go]. rewrite (TD _ _ Hv), E. cbn [obind]. rewrite E2. cbn [obind]. split; [reflexivity|]. split; [constructor; auto|].
      cbn [map concat]. rewrite C, C2. rewrite <- (skipn_add (sdim s) p). apply firstn_add.
Qed.

(** ** The triplets of a matrix *)
Definition trip : Type := (nat * nat * T)%type.
Definition row (t : trip) : nat := fst (fst t).
Definition col (t : trip) : nat := snd (fst t).
Definition val (t : trip) : T := snd t.
Definition shift (ro co : nat) (t : trip) : trip := (row t + ro, col t + co, val t).
Definition onval (f : trip -> T) (t : trip) : trip := (row t, col t, f t).
Definition smul (s : option (vec T)) (k : nat) (v : T) : T :=
  match s with Some s => tmul O v (nth (Nat.pred k) (contents s) z) | None => v end.
Definition zscale (f v : T) : T := if negb (teq O f z) then if negb (teq O f (t1 O)) then tmul O v f else v else z.
Definition presum (l : list nat) (k : nat) : nat := list_sum (firstn k l).
Fixpoint trips (m : mat T) : list trip :=
  match m with
  | GenT _ _ ir jc vals | SymT _ ir jc vals => map (fun k => (nth k ir 0, nth k jc 0, nth k vals z)) (seq 0 (length ir))
  | Diag d => map (fun i => (S i, S i, nth i (contents d) z)) (seq 0 (dim d))
  | Ident n f => map (fun i => (S i, S i, f)) (seq 0 n)
  | Expan _ pos => map (fun i => (S (nth i pos 0), S i, t1 O)) (seq 0 (length pos))
  | Scaled r m c => map (onval (fun t => smul c (col t) (smul r (row t) (val t)))) (trips m)
  | SymScaled s m => map (onval (fun t => smul s (col t) (smul s (row t) (val t)))) (trips m)
  | Sum _ _ k f t => flat_map (fun l => map (onval (fun x => tmul O (val x) (f l))) (trips (t l))) (seq 0 k)
  | SumSym _ k f t => flat_map (fun l => map (onval (fun x => zscale (f l) (val x))) (trips (t l))) (seq 0 k)
  | Compound brs bcs _ c =>
      flat_map (fun i => flat_map (fun j => match c i j with Some b => map (shift (presum brs i) (presum bcs j)) (trips b) | None => [] end)
                                  (seq 0 (length bcs))) (seq 0 (length brs))
  | CompoundSym bd c =>
      flat_map (fun i => flat_map (fun j => match c i j with Some b => map (shift (presum bd i) (presum bd j)) (trips b) | None => [] end)
                                  (seq 0 (S i))) (seq 0 (length bd))
  | Transp m => map (fun t => (col t, row t, val t)) (trips m)
  | ExpMV k vecs rs _ P =>
      flat_map (fun i => map (fun l => (S i, S (match P with Some (_, pos) => nth l pos 0 | None => l end),
                                        match vecs i with Some v => nth l (contents v) z | None => z end)) (seq 0 (sdim rs))) (seq 0 k)
  | ZeroM _ _ | ZeroSym _ | MultiVec _ _ _ | LowRank _ _ _ _ _ _ _ => []
  end.

Definition offs (ls : list space) (k : nat) : nat := list_sum (map sdim (firstn k ls)).
Lemma presum_offs ls k : presum (map sdim ls) k = offs ls k.
Proof. unfold presum, offs. rewrite firstn_map. reflexivity. Qed.
Lemma offs_S ls k : k < length ls -> offs ls (S k) = offs ls k + sdim (nth k ls sp0).
Proof. unfold offs. revert k; induction ls as [|a ls IH]; intros [|k] H; simpl in *; try lia. specialize (IH k). simpl in IH. rewrite IH by lia. lia. Qed.
Lemma offs_le ls k : k < length ls -> offs ls k + sdim (nth k ls sp0) <= sdim (SC ls).
Proof. unfold offs. simpl. revert k; induction ls as [|a ls IH]; intros [|k] H; simpl in *; try lia. specialize (IH k ltac:(lia)). lia. Qed.

(** all indices are in range *)
Lemma trips_range m : forall sr sc t, conf m sr sc -> In t (trips m) -> 1 <= row t <= sdim sr /\ 1 <= col t <= sdim sc.
Proof.
  induction m as [ | | | | | | nr pos| r m c IH| s m IH| nr nc k f t IH| n k f t IH| brs bcs sp c IH| bd c IH| m IH| k vecs rs nc P| | ] using mat_ind';
    intros sr sc tt C; cbn [trips]; try (intros []; fail); cbn [conf] in C.
  - rewrite in_map_iff. intros (k & <- & Hk). apply in_seq in Hk. unfold row, col; simpl. destruct C as (-> & -> & L1 & L2 & I1 & I2 & _).
    split; [apply I1|apply I2]; apply nth_In; lia.
  - rewrite in_map_iff. intros (k & <- & Hk). apply in_seq in Hk. unfold row, col; simpl. destruct C as (-> & -> & L1 & L2 & I1 & I2).
    split; [apply I1|apply I2]; apply nth_In; lia.
  - rewrite in_map_iff. intros (k & <- & Hk). apply in_seq in Hk. unfold row, col; simpl. destruct C as (<- & V). rewrite <- (vok_dim _ _ V). lia.
  - rewrite in_map_iff. intros (k & <- & Hk). apply in_seq in Hk. unfold row, col; simpl. destruct C as (<- & V). lia.
  - rewrite in_map_iff. intros (k & <- & Hk). apply in_seq in Hk. unfold row, col; simpl. destruct C as (-> & -> & _ & P). simpl.
    specialize (P (nth k pos 0) ltac:(apply nth_In; lia)). lia.
  - rewrite in_map_iff. intros (t & <- & Ht). apply (IH sr sc t); tauto.
  - rewrite in_map_iff. intros (t & <- & Ht). apply (IH sr sc t); tauto.
  - rewrite in_flat_map. intros (l & Hl & H2). apply in_seq in Hl. rewrite in_map_iff in H2. destruct H2 as (u & <- & Hu).
    apply (IH l sr sc u); auto. apply C. lia.
  - rewrite in_flat_map. intros (l & Hl & H2). apply in_seq in Hl. rewrite in_map_iff in H2. destruct H2 as (u & <- & Hu).
    apply (IH l sr sc u); auto. apply C. lia.
  - rewrite in_flat_map. intros (i & Hi & H2). apply in_seq in Hi. rewrite in_flat_map in H2. destruct H2 as (j & Hj & H2). apply in_seq in Hj.
    destruct C as (srs & scs & S1 & S2 & <- & <- & C). specialize (C i j ltac:(lia) ltac:(lia)). specialize (IH i j). destruct (c i j) as [b|]; [|destruct H2].
    rewrite in_map_iff in H2. destruct H2 as (u & <- & Hu). destruct C as [_ C]. specialize (IH _ _ u C Hu).
    rewrite (splits_dim _ _ _ S1), (splits_dim _ _ _ S2). rewrite map_length in *. rewrite !presum_offs.
    assert (B1 := offs_le srs i ltac:(lia)). assert (B2 := offs_le scs j ltac:(lia)). unfold shift, row, col in *; simpl fst in *; simpl snd in *. lia.
  - rewrite in_flat_map. intros (i & Hi & H2). apply in_seq in Hi. rewrite in_flat_map in H2. destruct H2 as (j & Hj & H2). apply in_seq in Hj.
    destruct C as (ss & -> & -> & <- & C). specialize (C i j ltac:(lia) ltac:(lia)). specialize (IH i j). destruct (c i j) as [b|]; [|destruct H2].
    rewrite in_map_iff in H2. destruct H2 as (u & <- & Hu). destruct C as [C _]. specialize (IH _ _ u C Hu).
    rewrite map_length in *. rewrite !presum_offs.
    assert (B1 := offs_le ss i ltac:(lia)). assert (B2 := offs_le ss j ltac:(lia)). unfold shift, row, col in *; simpl fst in *; simpl snd in *. lia.
  - rewrite in_map_iff. intros (t & <- & Ht). specialize (IH _ _ t C Ht). unfold row, col in *; simpl fst in *; simpl snd in *. tauto.
  - rewrite in_flat_map. intros (i & Hi & H2). apply in_seq in Hi. rewrite in_map_iff in H2. destruct H2 as (l & <- & Hl). apply in_seq in Hl.
    destruct C as (-> & E & _ & CP). unfold row, col; simpl fst; simpl snd. simpl sdim. split; [lia|]. destruct P as [[nr pos]|].
    + destruct CP as (-> & -> & _ & Q). simpl in *. specialize (Q (nth l pos 0) ltac:(apply nth_In; lia)). lia.
    + subst sc. lia.
Qed.

Lemma loop_count {X} k (L : nat -> list X) body s : (forall i s, i < k -> body i s = Some (s + length (L i))) ->
  loop k body s = Some (s + length (flat_map L (seq 0 k))).
Proof.
  induction k; intros H; [simpl; rewrite Nat.add_0_r; reflexivity|]. cbn [loop]. rewrite IHk by (intros; apply H; lia).
  rewrite H by lia. rewrite flat_seq_S, app_length, Nat.add_assoc. reflexivity.
Qed.
Lemma flat_const {X} n k (L : nat -> list X) : (forall i, length (L i) = n) -> length (flat_map L (seq 0 k)) = k * n.
Proof. intros H. induction k; [reflexivity|]. rewrite flat_seq_S, app_length, IHk, H. lia. Qed.

Theorem nent_ok m : forall sr sc, conf m sr sc -> known m -> nent m = Some (length (trips m)).
Proof.
  induction m as [ | | | | | | nr pos| r m c IH| s m IH| nr nc k f t IH| n k f t IH| brs bcs sp c IH| bd c IH| m IH| k vecs rs nc P| | ] using mat_ind';
    intros sr sc C K; cbn [trips nent]; cbn [known] in K; try destruct K; cbn [conf] in C; rewrite ?map_length, ?seq_length; try reflexivity.
  - apply (IH sr sc); tauto.
  - apply (IH sr sc); tauto.
  - rewrite (loop_count k (fun l => map (onval (fun x => tmul O (val x) (f l))) (trips (t l)))); [reflexivity|].
    intros i s Hi. rewrite (IH i sr sc) by (try apply C; auto). cbn [obind]. rewrite map_length. reflexivity.
  - rewrite (loop_count k (fun l => map (onval (fun x => zscale (f l) (val x))) (trips (t l)))); [reflexivity|].
    intros i s Hi. rewrite (IH i sr sc) by (try apply C; auto). cbn [obind]. rewrite map_length. reflexivity.
  - destruct C as (srs & scs & S1 & S2 & E1 & E2 & C). erewrite (loop_count (length brs)); [reflexivity|]. intros i s Hi.
    erewrite (loop_count (length bcs)); [reflexivity|]. intros j s2 Hj. specialize (C i j Hi Hj). specialize (K i j Hi Hj). specialize (IH i j). cbv beta.
    destruct (c i j) as [b|]; [|simpl; rewrite Nat.add_0_r; reflexivity]. rewrite (IH _ _ (proj2 C) K). cbn [obind]. rewrite map_length. reflexivity.
  - destruct C as (ss & E1 & E2 & E3 & C). erewrite (loop_count (length bd)); [reflexivity|]. intros i s Hi.
    erewrite (loop_count (S i)); [reflexivity|]. intros j s2 Hj. specialize (C i j ltac:(lia) Hi). specialize (K i j ltac:(lia) Hi). specialize (IH i j). cbv beta.
    destruct (c i j) as [b|]; [|simpl; rewrite Nat.add_0_r; reflexivity]. rewrite (IH _ _ (proj1 C) K). cbn [obind]. rewrite map_length. reflexivity.
  - apply (IH sc sr); auto.
  - rewrite (flat_const (sdim rs)); [reflexivity|]. intros. rewrite map_length, seq_length. reflexivity.
Qed.

(** the index pairs, shifted *)
Definition ij (ro co : nat) (l : list trip) : list (nat * nat) := map (fun t => (row t + ro, col t + co)) l.
Lemma ij_len ro co l : length (ij ro co l) = length l.
Proof. apply map_length. Qed.
Lemma ij_onval ro co f l : ij ro co (map (onval f) l) = ij ro co l.
Proof. unfold ij. rewrite map_map. reflexivity. Qed.
Lemma ij_shift ro co a b l : ij ro co (map (shift a b) l) = ij (ro + a) (co + b) l.
Proof. unfold ij. rewrite map_map. apply map_ext. intros [[i j] v]. unfold shift, row, col. simpl. f_equal; lia. Qed.
Lemma ij_flat {X} ro co (L : X -> list trip) l : ij ro co (flat_map L l) = flat_map (fun i => ij ro co (L i)) l.
Proof. apply map_flat_map. Qed.
Lemma loop_many2 {A} (mk : nat -> nat -> arrs -> A) k (L : nat -> list (nat * nat)) body p a : p + length (flat_map L (seq 0 k)) <= sz2 a ->
  (forall i q b, i < k -> sz2 b = sz2 a -> q + length (L i) <= sz2 a -> body i (mk i q b) = Some (mk (S i) (q + length (L i)) (blit2 q (L i) b))) ->
  loop k body (mk 0 p a) = Some (mk k (p + length (flat_map L (seq 0 k))) (blit2 p (flat_map L (seq 0 k)) a)).
Proof. intros. apply (loop_many blit2 sz2); auto using blit2_sz, blit2_nil, blit2_app. Qed.

Lemma presum_S l k : presum l (S k) = presum l k + nth k l 0.
Proof. unfold presum. revert k; induction l as [|x l IH]; intros [|k]; simpl in *; auto; try lia. rewrite IH. lia. Qed.

Lemma cell_rc (o : option (mat T)) ro co p a :
  match o with Some b => nent b = Some (length (trips b)) /\ (forall ro co p a, p + length (trips b) <= sz2 a -> fill_rc b (length (trips b)) ro co p a = Some (blit2 p (ij ro co (trips b)) a))
             | None => True end ->
  p + length (match o with Some b => ij ro co (trips b) | None => [] end) <= sz2 a ->
  match o with
  | Some b => obind (nent b) (fun bn => obind (fill_rc b bn ro co p a) (fun a => Some (p + bn, a)))
  | None => Some (p, a)
  end = Some (p + length (match o with Some b => ij ro co (trips b) | None => [] end), blit2 p (match o with Some b => ij ro co (trips b) | None => [] end) a).
Proof.
  destruct o as [b|]; intros H Hp; [|simpl; rewrite Nat.add_0_r, blit2_nil; reflexivity].
  destruct H as [-> H]. rewrite ij_len in *. cbn [obind]. rewrite H by auto. reflexivity.
Qed.

Theorem fill_rc_ok m : forall sr sc ro co p a, conf m sr sc -> known m -> p + length (trips m) <= sz2 a ->
  fill_rc m (length (trips m)) ro co p a = Some (blit2 p (ij ro co (trips m)) a).
Proof.
  induction m as [ | | | | | | nr pos| r m c IH| s m IH| nr nc k f t IH| n k f t IH| brs bcs sp c IH| bd c IH| m IH| k vecs rs nc P| | ] using mat_ind';
    intros sr sc ro co p a C K Hp; pose proof C as C0; cbn [trips fill_rc] in *; cbn [known] in K; try (destruct K; fail); cbn [conf] in C; rewrite ?map_length, ?seq_length in *.
  - destruct C as (_ & _ & L1 & L2 & _). rewrite (put2_ok _ _ _ (fun i => nth i ir 0 + ro) (fun i => nth i jc 0 + co)); auto.
    + unfold ij. rewrite map_map. reflexivity.
    + intros i Hi. unfold oadd. rewrite (rd_ok 0) by auto. reflexivity.
    + intros i Hi. unfold oadd. rewrite (rd_ok 0) by lia. reflexivity.
  - destruct C as (_ & _ & L1 & L2 & _). rewrite (put2_ok _ _ _ (fun i => nth i ir 0 + ro) (fun i => nth i jc 0 + co)); auto.
    + unfold ij. rewrite map_map. reflexivity.
    + intros i Hi. unfold oadd. rewrite (rd_ok 0) by auto. reflexivity.
    + intros i Hi. unfold oadd. rewrite (rd_ok 0) by lia. reflexivity.
  - rewrite (put2_ok _ _ _ (fun i => i + (ro + 1)) (fun i => i + (co + 1))); auto. unfold ij. rewrite map_map.
    f_equal. f_equal. apply map_ext. intros i. unfold row, col. simpl. f_equal; lia.
  - rewrite (put2_ok _ _ _ (fun i => i + (ro + 1)) (fun i => i + (co + 1))); auto. unfold ij. rewrite map_map.
    f_equal. f_equal. apply map_ext. intros i. unfold row, col. simpl. f_equal; lia.
  - simpl. rewrite blit2_nil. reflexivity.
  - simpl. rewrite blit2_nil. reflexivity.
  - rewrite (put2_ok _ _ _ (fun i => nth i pos 0 + (ro + 1)) (fun i => i + (co + 1))); auto.
    + unfold ij. rewrite map_map. f_equal. f_equal. apply map_ext. intros i. unfold row, col. simpl. f_equal; lia.
    + intros i Hi. unfold oadd. rewrite (rd_ok 0) by auto. reflexivity.
  - rewrite ij_onval. apply (IH sr sc); tauto.
  - rewrite ij_onval. apply (IH sr sc); tauto.
  - rewrite ij_flat in *. rewrite (loop_many2 (fun _ q b => (q, b)) k (fun l => ij ro co (map (onval (fun x => tmul O (val x) (f l))) (trips (t l))))).
    + reflexivity.
    + rewrite <- ij_flat, ij_len. exact Hp.
    + intros i q b Hi Hb Hq. rewrite ij_onval, ij_len in *. rewrite (nent_ok (t i) sr sc) by (try apply C; auto). cbn [obind].
      rewrite (IH i sr sc) by (try apply C; auto; lia). reflexivity.
  - rewrite ij_flat in *. rewrite (loop_many2 (fun _ q b => (q, b)) k (fun l => ij ro co (map (onval (fun x => zscale (f l) (val x))) (trips (t l))))).
    + reflexivity.
    + rewrite <- ij_flat, ij_len. exact Hp.
    + intros i q b Hi Hb Hq. rewrite ij_onval, ij_len in *. rewrite (nent_ok (t i) sr sc) by (try apply C; auto). cbn [obind].
      rewrite (IH i sr sc) by (try apply C; auto; lia). reflexivity.
  - destruct C as (srs & scs & S1 & S2 & E1 & E2 & C). rewrite ij_flat.
    rewrite <- (ij_len ro co), ij_flat in Hp.
    replace ro with (ro + presum brs 0) at 1 by (unfold presum; simpl; lia).
    rewrite (loop_many2 (fun i q b => (ro + presum brs i, (q, b))) (length brs) _ _ p a Hp); [reflexivity|].
    intros i q b Hi Hb Hq. rewrite ij_flat in *.
    replace co with (co + presum bcs 0) at 1 by (unfold presum; simpl; lia). rewrite <- Hb in Hq.
    rewrite (loop_many2 (fun j q b => (co + presum bcs j, (q, b))) (length bcs) _ _ q b Hq).
    + cbn [obind]. rewrite presum_S, Nat.add_assoc. reflexivity.
    + intros j q' b' Hj Hb' Hq'. assert (EL : ij ro co (match c i j with Some b => map (shift (presum brs i) (presum bcs j)) (trips b) | None => [] end)
                                            = match c i j with Some b => ij (ro + presum brs i) (co + presum bcs j) (trips b) | None => [] end).
      { destruct (c i j); [apply ij_shift|reflexivity]. }
      rewrite EL in *. rewrite cell_rc.
      * cbn [obind]. rewrite presum_S, Nat.add_assoc. reflexivity.
      * specialize (C i j Hi Hj). specialize (K i j Hi Hj). specialize (IH i j). destruct (c i j) as [m|]; [|exact Logic.I]. destruct C as [_ C].
        split; [apply (nent_ok _ _ _ C K)|]. intros. apply (IH _ _ _ _ _ _ C K). auto.
      * lia.
  - destruct C as (ss & E1 & E2 & E3 & C). rewrite ij_flat.
    rewrite <- (ij_len ro co), ij_flat in Hp.
    replace ro with (ro + presum bd 0) at 1 by (unfold presum; simpl; lia).
    rewrite (loop_many2 (fun i q b => (ro + presum bd i, (q, b))) (length bd) _ _ p a Hp); [reflexivity|].
    intros i q b Hi Hb Hq. rewrite ij_flat in *.
    replace co with (co + presum bd 0) at 1 by (unfold presum; simpl; lia). rewrite <- Hb in Hq.
    rewrite (loop_many2 (fun j q b => (co + presum bd j, (q, b))) (S i) _ _ q b Hq).
    + cbn [obind snd]. rewrite presum_S, Nat.add_assoc. reflexivity.
    + intros j q' b' Hj Hb' Hq'. assert (EL : ij ro co (match c i j with Some b => map (shift (presum bd i) (presum bd j)) (trips b) | None => [] end)
                                            = match c i j with Some b => ij (ro + presum bd i) (co + presum bd j) (trips b) | None => [] end).
      { destruct (c i j); [apply ij_shift|reflexivity]. }
      rewrite EL in *. rewrite cell_rc.
      * cbn [obind]. rewrite presum_S, Nat.add_assoc. reflexivity.
      * specialize (C i j ltac:(lia) Hi). specialize (K i j ltac:(lia) Hi). specialize (IH i j). destruct (c i j) as [m|]; [|exact Logic.I]. destruct C as [C _].
        split; [apply (nent_ok _ _ _ C K)|]. intros. apply (IH _ _ _ _ _ _ C K). auto.
      * lia.
  - rewrite (IH sc sr) by (auto; unfold sz2, swap in *; simpl; lia). cbn [obind]. unfold swap, blit2, ij. simpl. rewrite !map_map. reflexivity.
  - destruct C as (_ & EN & _ & CP).
    set (nexp := match P with Some (_, pos) => length pos | None => nc end).
    assert (EX : nexp = sdim rs) by (unfold nexp; destruct P as [[nr pos]|]; [destruct CP as (_ & -> & _); reflexivity|subst; lia]).
    rewrite ij_flat. rewrite <- (ij_len ro co), ij_flat in Hp.
    rewrite (loop_many2 (fun _ q b => (q, b)) k _ _ p a Hp); [reflexivity|].
    intros i q b Hi Hb Hq. rewrite ij_len, map_length, seq_length in *.
    rewrite (put2_ok _ _ _ (fun j => ro + 1 + i) (fun j => co + 1 + match P with Some (_, pos) => nth j pos 0 | None => j end)); [|lia|auto|].
    + cbn [obind]. rewrite EX. f_equal. f_equal. f_equal. unfold ij. rewrite map_map. apply map_ext. intros j. unfold row, col. simpl. f_equal; lia.
    + intros j Hj. destruct P as [[nr pos]|]; [|reflexivity]. rewrite (rd_ok 0) by auto. reflexivity.
Qed.

Lemma conf_dims (m : mat T) : forall sr sc, conf m sr sc -> nrows m = sdim sr /\ ncols m = sdim sc.
Proof.
  induction m using mat_ind'; intros sr sc C; cbn [conf nrows ncols] in *; try (intuition; subst; auto; fail).
  - destruct C as [<- V]. rewrite (vok_dim _ _ V). auto.
  - apply IHm; tauto.
  - apply IHm; tauto.
  - destruct C as (srs & scs & S1 & S2 & <- & <- & _). rewrite (splits_dim _ _ _ S1), (splits_dim _ _ _ S2). auto.
  - destruct C as (ss & -> & -> & <- & _). auto.
  - apply IHm in C. tauto.
Qed.

(** ** The values *)
Lemma loop_manyv {A} (mk : nat -> nat -> list T -> A) k (L : nat -> list T) body p a : p + length (flat_map L (seq 0 k)) <= length a ->
  (forall i q b, i < k -> length b = length a -> q + length (L i) <= length a -> body i (mk i q b) = Some (mk (S i) (q + length (L i)) (blit q (L i) b))) ->
  loop k body (mk 0 p a) = Some (mk k (p + length (flat_map L (seq 0 k))) (blit p (flat_map L (seq 0 k)) a)).
Proof. intros. apply (loop_many blit (@length T)); auto using @blit_len, @blit_nil, @blit_app. Qed.

Lemma nth_mapseq {A} (d : A) f n i : i < n -> nth i (map f (seq 0 n)) d = f i.
Proof. intros H. rewrite (@nth_map' _ _ f i 0) by (rewrite seq_length; auto). rewrite seq_nth by auto. reflexivity. Qed.
Lemma nth_mapl {A B} (f : A -> B) l i a b : i < length l -> nth i (map f l) b = f (nth i l a).
Proof. intros. apply nth_map'. auto. Qed.

Definition t00 : trip := (0, 0, z).
Lemma inplace_val n (L : list trip) (h : trip -> T) body p a : length L = n -> p + n <= length a ->
  (forall i b, i < n -> nth_error b (p + i) = Some (val (nth i L t00)) -> p + n <= length b -> body i b = Some (upd (p + i) (h (nth i L t00)) b)) ->
  loop n body (blit p (map val L) a) = Some (blit p (map h L) a).
Proof.
  intros E H HB. apply (loop_inplace z); rewrite ?map_length; auto. intros i b Hi Hb. rewrite !(nth_mapl _ _ _ t00) by lia. auto.
Qed.
Lemma upd_wr {A} (a : list A) p x : p < length a -> wr a p x = Some (upd p x a).
Proof. intros H. unfold wr. apply Nat.ltb_lt in H. rewrite H. reflexivity. Qed.
Lemma blas_scal_ok n (L : list trip) g p a : length L = n -> p + n <= length a ->
  loop n (fun l a => obind (rd a (p + l)) (fun v => wr a (p + l) (tmul O v g))) (blit p (map val L) a) = Some (blit p (map (fun t => tmul O (val t) g) L) a).
Proof.
  intros E H. apply inplace_val; auto. intros i b Hi N Hb. unfold rd. rewrite N. cbn [obind]. rewrite upd_wr by lia. reflexivity.
Qed.
Lemma get1_in sc k : 1 <= k <= length sc -> get1 sc k = Some (nth (Nat.pred k) sc z).
Proof. intros H. destruct k as [|k]; [lia|]. simpl. unfold aget. apply nth_error_nth'. lia. Qed.
Lemma scale_by_ok n sc (L : list trip) (f : trip -> T) (idx : trip -> nat) p a : length L = n -> p + n <= length a ->
  (forall t, In t L -> 1 <= idx t <= length sc) ->
  scale_by O n sc (map idx L) p (blit p (map f L) a) = Some (blit p (map (fun t => tmul O (f t) (nth (Nat.pred (idx t)) sc z)) L) a).
Proof.
  intros E H R. unfold scale_by. apply (loop_inplace z); rewrite ?map_length; auto. intros i b Hi Hb. rewrite !(nth_mapl _ _ _ t00) by lia.
  intros N. unfold rd. rewrite N. cbn [obind]. rewrite (nth_error_nth' _ 0) by (rewrite map_length; lia). cbn [obind].
  rewrite (nth_mapl _ _ _ t00) by lia. rewrite get1_in by (apply R, nth_In; lia). cbn [obind]. rewrite upd_wr by lia. reflexivity.
Qed.
Lemma upd_upd {A} p (x y : A) l : upd p y (upd p x l) = upd p y l.
Proof. revert p; induction l; intros [|p]; simpl; auto. f_equal. auto. Qed.
Lemma scale_both_ok n sc (L : list trip) (f : trip -> T) (r c : trip -> nat) p a : length L = n -> p + n <= length a ->
  (forall t, In t L -> 1 <= r t <= length sc) -> (forall t, In t L -> 1 <= c t <= length sc) ->
  scale_both O n sc (map r L) (map c L) p (blit p (map f L) a) =
  Some (blit p (map (fun t => tmul O (tmul O (f t) (nth (Nat.pred (r t)) sc z)) (nth (Nat.pred (c t)) sc z)) L) a).
Proof.
  intros E H R1 R2. unfold scale_both. apply (loop_inplace z); rewrite ?map_length; auto. intros i b Hi Hb. rewrite !(nth_mapl _ _ _ t00) by lia.
  intros N. unfold rd. rewrite N. cbn [obind]. rewrite !(nth_error_nth' (map _ _) 0) by (rewrite map_length; lia). cbn [obind].
  rewrite !(nth_mapl _ _ _ t00) by lia. rewrite !get1_in by (first [apply R1, nth_In | apply R2, nth_In]; lia). cbn [obind]. rewrite upd_wr by lia. cbn [obind].
  rewrite (nth_error_nth' _ z) by (rewrite upd_length; lia). rewrite nth_upd_same by lia. cbn [obind]. rewrite upd_wr by (rewrite upd_length; lia). rewrite upd_upd. reflexivity.
Qed.

Lemma contents_fun s (v : vec T) : vok s v -> contents v = map (fun i => nth i (contents v) z) (seq 0 (sdim s)).
Proof. intros V. etransitivity; [apply (list_fun z)|]. rewrite (vok_length _ _ V). reflexivity. Qed.
Lemma vec_scaling s (v : vec T) : vok s v -> fill_vec (sdim s) v 0 (junk (sdim s)) = Some (contents v).
Proof.
  intros V. rewrite (fill_vec_ok _ s) by (auto; rewrite junk_len; lia). rewrite blit_all; [reflexivity|]. rewrite junk_len. apply vok_length; auto.
Qed.
Lemma own_rc m sr sc : conf m sr sc -> known m -> let n := length (trips m) in fill_rc m n 0 0 0 (ijunk n, ijunk n) = Some (map row (trips m), map col (trips m)).
Proof.
  intros C K n. unfold n. rewrite (fill_rc_ok m sr sc) by (auto; unfold sz2; simpl; rewrite !ijunk_len; lia).
  unfold blit2, ij. rewrite !map_map. simpl. rewrite !blit_all by (rewrite map_length, ijunk_len; reflexivity).
  f_equal. f_equal; apply map_ext; intros t; unfold row, col; lia.
Qed.

Lemma cell_val (o : option (mat T)) p a g :
  match o with Some b => nent b = Some (length (trips b)) /\ (forall p a, p + length (trips b) <= length a -> fill_val O junk ijunk b (length (trips b)) p a = Some (blit p (map val (trips b)) a))
             | None => True end -> (forall t, val (g t) = val t) ->
  p + length (map val (match o with Some b => map g (trips b) | None => [] end)) <= length a ->
  match o with
  | Some b => obind (nent b) (fun bn => obind (fill_val O junk ijunk b bn p a) (fun a => Some (p + bn, a)))
  | None => Some (p, a)
  end = Some (p + length (map val (match o with Some b => map g (trips b) | None => [] end)), blit p (map val (match o with Some b => map g (trips b) | None => [] end)) a).
Proof.
  destruct o as [b|]; intros H G Hp; [|simpl; rewrite Nat.add_0_r, blit_nil; reflexivity].
  destruct H as [-> H]. rewrite !map_length in *. cbn [obind]. rewrite H by auto. cbn [obind]. rewrite map_map.
  replace (map (fun x => val (g x)) (trips b)) with (map val (trips b)); [reflexivity|]. apply map_ext. auto.
Qed.

Fixpoint lastvec (vecs : nat -> option (vec T)) (n i : nat) : list T :=
  match i with 0 => junk n | S i => match vecs i with Some v => contents v | None => lastvec vecs n i end end.
Lemma lastvec_len vecs n k : (forall i, i < k -> opt_in (SD n) (vecs i)) -> forall i, i <= k -> length (lastvec vecs n i) = n.
Proof.
  intros H. induction i; intros Hi; simpl; [apply junk_len|]. specialize (H i ltac:(lia)). destruct (vecs i) as [v|]; [apply (vok_length (SD n)); exact H|apply IHi; lia].
Qed.

Theorem fill_val_ok m : forall sr sc p a, conf m sr sc -> known m -> p + length (trips m) <= length a ->
  fill_val O junk ijunk m (length (trips m)) p a = Some (blit p (map val (trips m)) a).
Proof.
  induction m as [ | | | | | | nr pos| r m c IH| s m IH| nr nc k f t IH| n k f t IH| brs bcs sp c IH| bd c IH| m IH| k vecs rs nc P| | ] using mat_ind';
    intros sr sc p a C K Hp; pose proof C as C0; cbn [trips fill_val] in *; cbn [known] in K; try (destruct K; fail); cbn [conf] in C; rewrite ?map_length, ?seq_length in *; rewrite ?map_map.
  - destruct C as (_ & _ & L1 & L2 & _). apply put_ok; auto. intros i Hi. apply rd_ok. lia.
  - destruct C as (_ & _ & L1 & L2 & _). apply put_ok; auto. intros i Hi. apply rd_ok. lia.
  - destruct C as (<- & V). rewrite (vok_dim _ _ V) in *. rewrite (fill_vec_ok _ sr) by auto. rewrite (contents_fun sr d V) at 1. reflexivity.
  - apply put_ok; auto.
  - simpl. rewrite blit_nil. reflexivity.
  - simpl. rewrite blit_nil. reflexivity.
  - apply put_ok; auto.
  - destruct C as (C & C1 & C2). rewrite (IH sr sc) by auto. cbn [obind]. rewrite (own_rc m sr sc C K). cbn [obind fst snd].
    destruct (conf_dims _ _ _ C) as [-> ->]. assert (RG := fun t => trips_range m sr sc t C).
    assert (EQ1 : match r with
             | Some s => obind (fill_vec (sdim sr) s 0 (junk (sdim sr))) (fun sc0 => scale_by O (length (trips m)) sc0 (map row (trips m)) p (blit p (map val (trips m)) a))
             | None => Some (blit p (map val (trips m)) a)
             end = Some (blit p (map (fun t => smul r (row t) (val t)) (trips m)) a)).
    { destruct r as [s|]; [|reflexivity]. simpl in C1. rewrite (vec_scaling _ _ C1). cbn [obind].
      apply (scale_by_ok _ _ _ val); auto. intros t Ht. rewrite (vok_length _ _ C1). apply RG; auto. }
    rewrite EQ1. cbn [obind]. destruct c as [s|]; [|reflexivity]. simpl in C2. rewrite (vec_scaling _ _ C2). cbn [obind].
    rewrite (scale_by_ok _ _ _ (fun t => smul r (row t) (val t))); auto. intros t Ht. rewrite (vok_length _ _ C2). apply RG; auto.
  - destruct C as (<- & C & C1 & _). rewrite (IH sr sr) by auto. cbn [obind]. rewrite (own_rc m sr sr C K). cbn [obind fst snd].
    destruct (conf_dims _ _ _ C) as [-> _]. assert (RG := fun t => trips_range m sr sr t C).
    destruct s as [s|]; [|reflexivity]. simpl in C1. rewrite (vec_scaling _ _ C1). cbn [obind].
    rewrite (scale_both_ok _ _ _ val); auto; intros t Ht; rewrite (vok_length _ _ C1); apply RG; auto.
  - rewrite map_flat_map. rewrite <- (map_length val), map_flat_map in Hp.
    rewrite (loop_manyv (fun _ q b => (q, b)) k _ _ p a Hp); [reflexivity|].
    intros i q b Hi Hb Hq. rewrite !map_length, map_map in *. rewrite (nent_ok (t i) sr sc) by (try apply C; auto). cbn [obind].
    rewrite (IH i sr sc) by (try apply C; auto; lia). cbn [obind]. rewrite blas_scal_ok by (auto; lia). reflexivity.
  - rewrite map_flat_map. rewrite <- (map_length val), map_flat_map in Hp.
    rewrite (loop_manyv (fun _ q b => (q, b)) k _ _ p a Hp); [reflexivity|].
    intros i q b Hi Hb Hq. rewrite !map_length, map_map in *. rewrite (nent_ok (t i) sr sc) by (try apply C; auto). cbn [obind].
    unfold zscale, onval, val at 2; simpl. destruct (teq O (f i) z); cbn [negb].
    + rewrite (put_ok _ _ (fun _ => z)) by (auto; lia). cbn [obind]. f_equal. f_equal. f_equal.
      apply (nth_ext _ _ z z); rewrite !map_length, seq_length; [reflexivity|]. intros j Hj. rewrite nth_mapseq by auto. rewrite (nth_mapl _ _ _ t00) by auto. reflexivity.
    + rewrite (IH i sr sc) by (try apply C; auto; lia). cbn [obind]. destruct (teq O (f i) (t1 O)); cbn [negb]; [reflexivity|].
      rewrite blas_scal_ok by (auto; lia). reflexivity.
  - destruct C as (srs & scs & S1 & S2 & E1 & E2 & C). rewrite map_flat_map. rewrite <- (map_length val), map_flat_map in Hp.
    rewrite (loop_manyv (fun _ q b => (q, b)) (length brs) _ _ p a Hp); [reflexivity|].
    intros i q b Hi Hb Hq. rewrite map_flat_map in *. rewrite <- Hb in Hq.
    rewrite (loop_manyv (fun _ q b => (q, b)) (length bcs) _ _ q b Hq); [reflexivity|].
    intros j q' b' Hj Hb' Hq'. apply cell_val; [|reflexivity|lia].
    specialize (C i j Hi Hj). specialize (K i j Hi Hj). specialize (IH i j). destruct (c i j) as [m|]; [|exact Logic.I]. destruct C as [_ C].
    split; [apply (nent_ok _ _ _ C K)|]. intros. apply (IH _ _ _ _ C K). auto.
  - destruct C as (ss & E1 & E2 & E3 & C). rewrite map_flat_map. rewrite <- (map_length val), map_flat_map in Hp.
    rewrite (loop_manyv (fun _ q b => (q, b)) (length bd) _ _ p a Hp); [reflexivity|].
    intros i q b Hi Hb Hq. rewrite map_flat_map in *. rewrite <- Hb in Hq.
    rewrite (loop_manyv (fun _ q b => (q, b)) (S i) _ _ q b Hq); [reflexivity|].
    intros j q' b' Hj Hb' Hq'. apply cell_val; [|reflexivity|lia].
    specialize (C i j ltac:(lia) Hi). specialize (K i j ltac:(lia) Hi). specialize (IH i j). destruct (c i j) as [m|]; [|exact Logic.I]. destruct C as [C _].
    split; [apply (nent_ok _ _ _ C K)|]. intros. apply (IH _ _ _ _ C K). auto.
  - apply (IH sc sr); auto.
  - destruct C as (_ & EN & CV & CP). rewrite map_flat_map. rewrite <- (map_length val), map_flat_map in Hp.
    destruct P as [[nr pos]|].
    + destruct CP as (_ & -> & _). simpl sdim in *.
      rewrite (loop_manyv (fun i q b => (q, (lastvec vecs (length pos) i, b))) k _ _ p a Hp); [reflexivity|].
      intros i q b Hi Hb Hq. rewrite !map_length, seq_length, map_map in *. specialize (CV i Hi) as V. unfold val; simpl snd. cbn [lastvec].
      destruct (vecs i) as [v|] eqn:EV.
      * simpl in V. rewrite (fill_vec_ok _ (SD (length pos))) by (auto; rewrite (lastvec_len vecs _ k) by (auto; lia); simpl; lia). cbn [obind].
        assert (LV := vok_length _ _ V). simpl in LV. rewrite blit_all by (rewrite (lastvec_len vecs _ k) by (auto; lia); auto).
        rewrite (put_ok _ _ (fun j => nth j (contents v) z)) by (try lia; intros; apply rd_ok; lia). reflexivity.
      * rewrite (put_ok _ _ (fun j => z)) by (auto; lia). reflexivity.
    + subst sc. rewrite <- EN in *.
      rewrite (loop_manyv (fun _ q b => (q, b)) k _ _ p a Hp); [reflexivity|].
      intros i q b Hi Hb Hq. rewrite !map_length, seq_length, map_map in *. specialize (CV i Hi) as V. unfold val; simpl snd.
      destruct (vecs i) as [v|] eqn:EV.
      * simpl in V. rewrite (fill_vec_ok _ rs) by (auto; lia). cbn [obind]. rewrite (contents_fun _ _ V) at 1. reflexivity.
      * rewrite (put_ok _ _ (fun j => z)) by (auto; lia). reflexivity.
Qed.
End Trips.
