(** C56: conversion of matrices to triplet arrays and of vectors to arrays. *)
From Coq Require Import List Bool Arith Reals Lia Lra.
From Flocq Require Import Raux.
From Verif Require Import Num VecModel VecSpec VecProofs VecLift VecReal ExpModel ExpSpec ExpProofs MatModel MatSpec MatVec MatLeaf MatProofs
  TripModel TripBlit TripProofs TripSpec TripReal.
Import ListNotations.
Local Open Scope R_scope.

(** The call sequence of the users of TripletHelper: n = GetNumberEntries(M); arrays of length n;
    FillRowCol(n, M, iRow, jCol); FillValues(n, M, values). For a matrix of general class the
    arrays describe exactly M, whatever the arrays contained before. *)
Theorem C56_general lg junk ijunk m sr sc : (forall n, length (junk n) = n) -> (forall n, length (ijunk n) = n) -> conf m sr sc -> full m ->
  exists n ir jc vals, nent m = Some n /\ length ir = n /\ length jc = n /\ length vals = n /\
    (forall ir0 jc0, length ir0 = n -> length jc0 = n -> fill_rc m n 0 0 0 (ir0, jc0) = Some (ir, jc)) /\
    (forall vals0, length vals0 = n -> fill_val (R_ops lg) junk ijunk m n 0 vals0 = Some vals) /\
    in_range (nrows m) ir /\ in_range (ncols m) jc /\
    forall i j, (i < nrows m)%nat -> (j < ncols m)%nat -> den (GenT (nrows m) (ncols m) ir jc vals) i j = den m i j.
Proof.
  intros Hj Hij C F. pose proof (full_known _ F) as K. set (L := trips (R_ops lg) m). destruct (conf_dims _ _ _ C) as [-> ->].
  exists (length L), (map row L), (map col L), (map val L). rewrite !map_length.
  split; [apply (nent_ok _ _ _ _ C K)|]. split; [reflexivity|]. split; [reflexivity|]. split; [reflexivity|]. split; [|split; [|split; [|split]]].
  - intros ir0 jc0 E1 E2. unfold L. rewrite (fill_rc_ok (R_ops lg) m sr sc) by (auto; unfold sz2; simpl; fold L; lia).
    unfold blit2, ij. rewrite !map_map. simpl. rewrite !blit_all by (rewrite map_length; auto).
    f_equal. f_equal; apply map_ext; intros t; unfold row, col; lia.
  - intros v0 E. unfold L. rewrite (fill_val_ok (R_ops lg) junk ijunk Hj Hij m sr sc) by (auto; fold L; lia). rewrite blit_all; [reflexivity|]. rewrite map_length. auto.
  - intros k. rewrite in_map_iff. intros (t & <- & Ht). apply (trips_range (R_ops lg) m sr sc t C Ht).
  - intros k. rewrite in_map_iff. intros (t & <- & Ht). apply (trips_range (R_ops lg) m sr sc t C Ht).
  - intros i j Hi Hjj. rewrite gent_den. apply (full_den lg m sr sc); auto.
Qed.

(** For symmetric classes the arrays describe one triangle: read as SymTMatrix (every
    off-diagonal entry counts for its mirror image too) they are exactly M. *)
Theorem C56_symmetric lg junk ijunk m s : (forall n, length (junk n) = n) -> (forall n, length (ijunk n) = n) -> conf m s s -> half m ->
  exists n ir jc vals, nent m = Some n /\ length ir = n /\ length jc = n /\ length vals = n /\
    (forall ir0 jc0, length ir0 = n -> length jc0 = n -> fill_rc m n 0 0 0 (ir0, jc0) = Some (ir, jc)) /\
    (forall vals0, length vals0 = n -> fill_val (R_ops lg) junk ijunk m n 0 vals0 = Some vals) /\
    in_range (nrows m) ir /\ in_range (ncols m) jc /\
    forall i j, (i < nrows m)%nat -> (j < nrows m)%nat -> den (SymT (nrows m) ir jc vals) i j = den m i j.
Proof.
  intros Hj Hij C F. pose proof (half_known _ F) as K. set (L := trips (R_ops lg) m). destruct (conf_dims _ _ _ C) as [-> ->].
  exists (length L), (map row L), (map col L), (map val L). rewrite !map_length.
  split; [apply (nent_ok _ _ _ _ C K)|]. split; [reflexivity|]. split; [reflexivity|]. split; [reflexivity|]. split; [|split; [|split; [|split]]].
  - intros ir0 jc0 E1 E2. unfold L. rewrite (fill_rc_ok (R_ops lg) m s s) by (auto; unfold sz2; simpl; fold L; lia).
    unfold blit2, ij. rewrite !map_map. simpl. rewrite !blit_all by (rewrite map_length; auto).
    f_equal. f_equal; apply map_ext; intros t; unfold row, col; lia.
  - intros v0 E. unfold L. rewrite (fill_val_ok (R_ops lg) junk ijunk Hj Hij m s s) by (auto; fold L; lia). rewrite blit_all; [reflexivity|]. rewrite map_length. auto.
  - intros k. rewrite in_map_iff. intros (t & <- & Ht). apply (trips_range (R_ops lg) m s s t C Ht).
  - intros k. rewrite in_map_iff. intros (t & <- & Ht). apply (trips_range (R_ops lg) m s s t C Ht).
  - intros i j Hi Hjj. rewrite symt_den. apply (half_den lg m s); auto.
Qed.

Lemma blit_segment {A} p (l a : list A) : (p + length l <= length a)%nat -> segment p l a (blit p l a).
Proof.
  intros H. split; [apply blit_len; auto|]. destruct a as [|d a'].
  - destruct l; simpl in *; [|lia]. destruct p; [|lia]. split; [intros; lia|]. intros i _. reflexivity.
  - set (a := d :: a') in *. split.
    + intros i Hi. rewrite (nth_error_blit _ _ _ _ d) by auto. symmetry. apply nth_error_nth'. auto.
    + intros i Hi. destruct (Nat.lt_ge_cases i (length a)).
      * rewrite !(nth_error_nth' _ d) by (rewrite ?blit_len; auto). rewrite blit_out; auto.
      * rewrite !(proj2 (nth_error_None _ _)); rewrite ?blit_len; auto.
Qed.

(** With pointers into larger arrays and with offsets, exactly the n entries at the
    pointers are written: the same values, with the indices shifted by the offsets.
    For every number type, in particular for double. *)
Theorem C56_in_place {T} (O : nops T) junk ijunk m sr sc : (forall n, length (junk n) = n) -> (forall n, length (ijunk n) = n) -> conf m sr sc -> known m ->
  exists n ir jc vals, nent m = Some n /\ length ir = n /\ length jc = n /\ length vals = n /\
    (forall ro co p ir0 jc0, (p + n <= length ir0)%nat -> (p + n <= length jc0)%nat ->
       exists ir1 jc1, fill_rc m n ro co p (ir0, jc0) = Some (ir1, jc1) /\
         segment p (map (fun i => i + ro)%nat ir) ir0 ir1 /\ segment p (map (fun j => j + co)%nat jc) jc0 jc1) /\
    (forall p vals0, (p + n <= length vals0)%nat ->
       exists vals1, fill_val O junk ijunk m n p vals0 = Some vals1 /\ segment p vals vals0 vals1).
Proof.
  intros Hj Hij C K. set (L := trips O m). exists (length L), (map row L), (map col L), (map val L). rewrite !map_length.
  split; [apply (nent_ok _ _ _ _ C K)|]. split; [reflexivity|]. split; [reflexivity|]. split; [reflexivity|]. split.
  - intros ro co p ir0 jc0 E1 E2. unfold L. rewrite (fill_rc_ok O m sr sc) by (auto; unfold sz2; simpl; fold L; lia).
    unfold blit2, ij. rewrite !map_map. simpl. eexists _, _. split; [reflexivity|]. split; apply blit_segment; rewrite map_length; auto.
  - intros p v0 E. unfold L. rewrite (fill_val_ok O junk ijunk Hj Hij m sr sc) by (auto; fold L; lia). eexists. split; [reflexivity|]. apply blit_segment. rewrite map_length. auto.
Qed.

(** The structure does not depend on the numbers in the matrix: the symbolic
    factorization done for one iterate can be used for all of them. *)
Theorem C56_structure {T} (m : mat T) : forall m', alike m m' -> nent m = nent m' /\
  forall n ro co p a, fill_rc m n ro co p a = fill_rc m' n ro co p a.
Proof.
  induction m as [ | | | | | | nr pos| r m c IH| s m IH| nr nc k f t IH| n k f t IH| brs bcs sp c IH| bd c IH| m IH| k vecs rs nc P| | ] using mat_ind';
    intros m' A; destruct m'; cbn [alike] in A; try (destruct A; fail); cbn [nent fill_rc]; try (apply IH; exact A); try (intuition; subst; auto; fail).
  - destruct A as (-> & -> & -> & A). split.
    + apply loop_ext. intros i s Hi. rewrite (proj1 (IH i _ (A i Hi))). reflexivity.
    + intros n ro co p a. f_equal. apply loop_ext. intros i [q b] Hi. destruct (IH i _ (A i Hi)) as [-> H]. destruct (nent (t0 i)); [|reflexivity]. cbn [obind]. rewrite H. reflexivity.
  - destruct A as (-> & -> & A). split.
    + apply loop_ext. intros i s Hi. rewrite (proj1 (IH i _ (A i Hi))). reflexivity.
    + intros n ro co p a. f_equal. apply loop_ext. intros i [q b] Hi. destruct (IH i _ (A i Hi)) as [-> H]. destruct (nent (t0 i)); [|reflexivity]. cbn [obind]. rewrite H. reflexivity.
  - destruct A as (-> & -> & A). split.
    + apply loop_ext. intros i s Hi. apply loop_ext. intros j s2 Hj. specialize (A i j Hi Hj). specialize (IH i j). destruct (c i j), (c0 i j); try (destruct A; fail); auto. rewrite (proj1 (IH _ A)). reflexivity.
    + intros n ro co p a. f_equal. apply loop_ext. intros i [cro st] Hi. f_equal. apply loop_ext. intros j [cco [q b]] Hj. f_equal.
      specialize (A i j Hi Hj). specialize (IH i j). destruct (c i j), (c0 i j); try (destruct A; fail); auto. destruct (IH _ A) as [-> H].
      destruct (nent m0); [|reflexivity]. cbn [obind]. rewrite H. reflexivity.
  - destruct A as (-> & A). split.
    + apply loop_ext. intros i s Hi. apply loop_ext. intros j s2 Hj. specialize (A i j ltac:(lia) Hi). specialize (IH i j). destruct (c i j), (c0 i j); try (destruct A; fail); auto. rewrite (proj1 (IH _ A)). reflexivity.
    + intros n ro co p a. f_equal. apply loop_ext. intros i [cro st] Hi. f_equal. apply loop_ext. intros j [cco [q b]] Hj. f_equal.
      specialize (A i j ltac:(lia) Hi). specialize (IH i j). destruct (c i j), (c0 i j); try (destruct A; fail); auto. destruct (IH _ A) as [-> H].
      destruct (nent m0); [|reflexivity]. cbn [obind]. rewrite H. reflexivity.
  - destruct (IH _ A) as [E H]. split; [exact E|]. intros. rewrite H. reflexivity.
Qed.

(** FillValuesFromVector writes the elements of the vector, in order, and nothing else *)
Theorem C56_from_vector {T} (O : nops T) (v : vec T) s p a : vok s v -> (p + dim v <= length a)%nat ->
  exists a', fill_vec (dim v) v p a = Some a' /\ segment p (contents v) a a'.
Proof.
  intros V H. rewrite (vok_dim _ _ V) in *. eexists. split; [apply (fill_vec_ok O v s); auto|]. apply blit_segment. rewrite (vok_length _ _ V). auto.
Qed.
(** PutValuesInVector makes the n elements of the array the elements of the vector,
    whether it had values before or not *)
Theorem C56_into_vector {T} (O : nops T) junk (v : vec T) s p a : (forall n, length (junk n) = n) -> target O s v -> (p + sdim s <= length a)%nat ->
  exists v', put_vec junk (sdim s) a p v = Some v' /\ vok s v' /\ contents v' = firstn (sdim s) (skipn p a).
Proof. intros Hj Tg H. apply (put_vec_ok O junk Hj v s (sdim s) p a Tg eq_refl H). Qed.
(** The two are inverse to each other *)
Theorem C56_round_trip {T} (O : nops T) junk (v w : vec T) s a : (forall n, length (junk n) = n) -> vok s v -> target O s w -> length a = dim v ->
  exists a' w', fill_vec (dim v) v 0 a = Some a' /\ put_vec junk (dim v) a' 0 w = Some w' /\ vok s w' /\ contents w' = contents v.
Proof.
  intros Hj V Tw H. assert (LV := vok_length _ _ V). rewrite (vok_dim _ _ V) in *.
  rewrite (fill_vec_ok O v s) by (auto; lia). rewrite blit_all by lia.
  destruct (C56_into_vector O junk w s 0 (contents v) Hj Tw ltac:(lia)) as (w' & E & W & E2).
  exists (contents v), w'. repeat (split; auto). rewrite E2. simpl. rewrite <- LV. apply firstn_all.
Qed.

(** A term of a SumSymMatrix with factor zero contributes zeros, whatever it contains
    (NaN and infinities included): its values are not even read *)
Theorem C56_zero_factor {T} (O : nops T) junk ijunk n m p a f cnt : teq O f (t0 O) = true -> nent m = Some cnt -> (p + cnt <= length a)%nat ->
  exists a', fill_val O junk ijunk (SumSym n 1 (fun _ => f) (fun _ => m)) cnt p a = Some a' /\ segment p (repeat (t0 O) cnt) a a'.
Proof.
  intros E N H. cbn [fill_val loop]. rewrite N. cbn [obind]. rewrite E. cbn [negb]. rewrite (put_ok _ _ (fun _ => t0 O)) by auto. cbn [obind snd]. eexists. split; [reflexivity|].
  replace (map (fun _ => t0 O) (seq 0 cnt)) with (repeat (t0 O) cnt); [apply blit_segment; rewrite repeat_length; auto|].
  apply (repeat_map (t0 O) cnt).
Qed.

Ltac inr := repeat split; auto; try match goal with H : In _ _ |- _ => simpl in H; intuition (subst; lia) end.
(** Findings. A symmetric triplet matrix inside of a general matrix (here the term of a
    SumMatrix, or scaled) is written by one triangle: read as a general triplet matrix, the
    result lacks the other one. *)
Theorem C56_symmetric_inside_general_refuted lg junk ijunk : (forall n, length (junk n) = n) -> (forall n, length (ijunk n) = n) ->
  let s := SymT 2 [2%nat] [1%nat] [1] in
  let m := Sum 2 2 1 (fun _ => 1) (fun _ => s) in
  conf m (SD 2) (SD 2) /\ nent m = Some 1%nat /\
  exists ir jc vals, fill_rc m 1 0 0 0 ([0%nat], [0%nat]) = Some (ir, jc) /\ fill_val (R_ops lg) junk ijunk m 1 0 [0] = Some vals /\
    den (GenT 2 2 ir jc vals) 0 1 <> den m 0 1.
Proof.
  intros Hj Hij s m. split; [|split].
  - unfold m, s. simpl. split; [reflexivity|]. split; [reflexivity|]. intros i _. inr.
  - reflexivity.
  - exists [2%nat], [1%nat], [1 * 1]. split; [reflexivity|]. split; [reflexivity|]. simpl. lra.
Qed.
(** MultiVectorMatrix and LowRankUpdateSymMatrix cannot be converted, alone or inside of
    another matrix; everything else can *)
Lemma loop_each {A} k (body : nat -> A -> option A) a r : loop k body a = Some r -> forall i, (i < k)%nat -> exists b b', body i b = Some b'.
Proof.
  revert r. induction k; intros r E i Hi; [lia|]. cbn [loop] in E. destruct (loop k body a) as [b|]; [|discriminate].
  destruct (Nat.eq_dec i k) as [->|]; [eauto|]. apply (IHk b eq_refl). lia.
Qed.
Theorem C56_convertible {T} (O : nops T) (m : mat T) sr sc : conf m sr sc -> ((exists n, nent m = Some n) <-> known m).
Proof.
  intros C. split; [|intros K; eexists].
  2:{ apply (nent_ok O m sr sc); auto. }
  clear C. intros [n E]. revert n E.
  induction m as [ | | | | | | nr pos| r m c IH| s m IH| nr nc k f t IH| n k f t IH| brs bcs sp c IH| bd c IH| m IH| k vecs rs nc P| | ] using mat_ind';
    intros n0 E; cbn [nent known] in *; auto; try discriminate; try (eapply IH; eauto; fail).
  - intros i Hi. destruct (loop_each _ _ _ _ E i Hi) as (b & b' & E2). destruct (nent (t i)) eqn:N; [|discriminate]. eapply IH; eauto.
  - intros i Hi. destruct (loop_each _ _ _ _ E i Hi) as (b & b' & E2). destruct (nent (t i)) eqn:N; [|discriminate]. eapply IH; eauto.
  - intros i j Hi Hj. destruct (loop_each _ _ _ _ E i Hi) as (b & b' & E2). destruct (loop_each _ _ _ _ E2 j Hj) as (b1 & b1' & E3). cbn beta in E3. specialize (IH i j).
    destruct (c i j) as [m|]; [|exact Logic.I]. destruct (nent m) eqn:N; [|discriminate]. eapply IH; eauto.
  - intros i j Hj Hi. destruct (loop_each _ _ _ _ E i Hi) as (b & b' & E2). destruct (loop_each _ _ _ _ E2 j ltac:(lia)) as (b1 & b1' & E3). cbn beta in E3. specialize (IH i j).
    destruct (c i j) as [m|]; [|exact Logic.I]. destruct (nent m) eqn:N; [|discriminate]. eapply IH; eauto.
Qed.
Example C56_multivector_rejected {T} (v : vec T) (f : T) n : nent (Sum n 1 1 (fun _ => f) (fun _ => MultiVec n 1 (fun _ => v))) = None.
Proof. reflexivity. Qed.

(** The hypotheses are met: the KKT-like matrix [ W+D  J^T ; J  0 ] with a symmetric triplet
    matrix W, a diagonal D and a scaled general Jacobian J *)
Example C56_symmetric_example : let dv l := Dense (length l) (DV true false 0 (Some l)) : vec R in
  let W := SumSym 2 2 (fun l => if Nat.eqb l 0 then 1 else 0) (fun l => if Nat.eqb l 0 then SymT 2 [1; 2; 2]%nat [1; 1; 2]%nat [1; 2; 3] else Diag (dv [4; 5])) in
  let J := Scaled (Some (dv [10])) (GenT 1 2 [1; 1]%nat [1; 2]%nat [6; 7]) None in
  let m := CompoundSym [2; 1]%nat (fun i j => if Nat.eqb i 0 then Some W else if Nat.eqb j 0 then Some J else None) in
  conf m (SC [SD 2; SD 1]) (SC [SD 2; SD 1]) /\ half m /\ nent m = Some 7%nat /\
  fill_rc m 7 0 0 0 (repeat 0%nat 7, repeat 0%nat 7) = Some ([1; 2; 2; 1; 2; 3; 3]%nat, [1; 1; 2; 1; 2; 1; 2]%nat).
Proof.
  intros dv W J m.
  assert (DV2 : forall l, vok (SD (length l)) (dv l)). { intros l. constructor. split; [reflexivity|]. split; [intros _; eexists; split; reflexivity|]. intros l' E. injection E as <-. reflexivity. }
  split; [|split; [|split; reflexivity]].
  - exists [SD 2; SD 1]. split; [reflexivity|]. split; [reflexivity|]. split; [reflexivity|]. intros i j Hj Hi. simpl in Hi.
    destruct i as [|[|i]]; [|destruct j as [|[|j]]|]; try lia; simpl.
    + assert (j = 0%nat) by lia. subst j. split; [|reflexivity]. split; [reflexivity|]. split; [reflexivity|]. intros i Hi'.
      destruct i as [|[|i]]; try lia; simpl; (split; [|reflexivity]).
      * inr.
      * split; [reflexivity|]. apply (DV2 [4; 5]).
    + split; [|intros; discriminate]. split; [|split; [apply (DV2 [10])|exact Logic.I]].
      inr.
    + exact Logic.I.
  - intros i j Hj Hi. simpl in Hi. destruct i as [|[|i]]; [|destruct j as [|[|j]]|]; try lia; simpl; auto.
    destruct j; [|lia]. simpl. intros i Hi'. destruct (Nat.eqb i 0); exact Logic.I.
Qed.

Print Assumptions C56_general.
Print Assumptions C56_symmetric.
Print Assumptions C56_in_place.
Print Assumptions C56_structure.
Print Assumptions C56_round_trip.
Print Assumptions C56_convertible.
