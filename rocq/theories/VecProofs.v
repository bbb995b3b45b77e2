(** Proofs about the vector model: effect of the operations on the elements. *)
From Coq Require Import List Bool Arith ZArith Reals Lia Lra.
From Flocq Require Import Core BinarySingleNaN.
From Verif Require Import Num VecModel VecSpec.
Import ListNotations.
Local Open Scope nat_scope.

(** ** Lists as functions on positions *)
Lemma map2_map {A B C D} (f : B -> C -> D) (g : A -> B) (h : A -> C) s :
  map2 f (map g s) (map h s) = map (fun i => f (g i) (h i)) s.
Proof. induction s; simpl; congruence. Qed.
Lemma map3_map {A B C D E} (f : B -> C -> D -> E) (g : A -> B) (h : A -> C) (k : A -> D) s :
  map3 f (map g s) (map h s) (map k s) = map (fun i => f (g i) (h i) (k i)) s.
Proof. induction s; simpl; congruence. Qed.
Lemma repeat_map {A} (a : A) n : repeat a n = map (fun _ => a) (seq 0 n).
Proof.
  assert (H : forall k, repeat a n = map (fun _ => a) (seq k n)) by (induction n; intros k; simpl; [|rewrite (IHn (S k))]; reflexivity).
  apply H.
Qed.
Lemma list_fun {A} (d : A) (l : list A) : l = map (fun i => nth i l d) (seq 0 (length l)).
Proof.
  assert (H : forall (m p : list A), map (fun i => nth i (p ++ m) d) (seq (length p) (length m)) = m).
  { induction m; intros p; [reflexivity|]. simpl. f_equal.
    - rewrite app_nth2 by lia. rewrite Nat.sub_diag. reflexivity.
    - specialize (IHm (p ++ [a])). rewrite <- app_assoc, app_length in IHm. simpl in IHm.
      rewrite Nat.add_1_r in IHm. exact IHm. }
  symmetry. exact (H l []).
Qed.
Lemma map2_app {A B C} (f : A -> B -> C) l1 m1 l2 m2 : length l1 = length m1 ->
  map2 f (l1 ++ l2) (m1 ++ m2) = map2 f l1 m1 ++ map2 f l2 m2.
Proof. revert m1; induction l1; intros [|] E; simpl in *; try lia; [reflexivity|]. f_equal. apply IHl1; lia. Qed.
Lemma map3_app {A B C D} (f : A -> B -> C -> D) l1 m1 k1 l2 m2 k2 : length l1 = length m1 -> length l1 = length k1 ->
  map3 f (l1 ++ l2) (m1 ++ m2) (k1 ++ k2) = map3 f l1 m1 k1 ++ map3 f l2 m2 k2.
Proof. revert m1 k1; induction l1; intros [|] [|] E F; simpl in *; try lia; [reflexivity|]. f_equal. apply IHl1; lia. Qed.

(** an element-wise loop over arrays, position by position *)
Lemma map2_ext {A B C} (f g : A -> B -> C) l m : (forall a b, f a b = g a b) -> map2 f l m = map2 g l m.
Proof. intros H. revert m; induction l; intros [|]; simpl; congruence. Qed.
Lemma map3_ext {A B C D} (f g : A -> B -> C -> D) l m k : (forall a b c, f a b c = g a b c) -> map3 f l m k = map3 g l m k.
Proof. intros H. revert m k; induction l; intros [|] [|]; simpl; congruence. Qed.
Lemma upd_length {A} i (a : A) l : length (upd i a l) = length l.
Proof. revert i; induction l; intros [|]; simpl; auto. Qed.

Ltac lists := repeat first [rewrite map_map | rewrite map2_map | rewrite map3_map | rewrite repeat_map].

(** ** Vectors whose elements are given by a function on positions *)
Section Gen.
Context {T : Type} (O : nops T).

Definition drep (n : nat) (e : nat -> T) (d : dvec T) : Prop := dok n d /\ dden n d = map e (seq 0 n).

Lemma dden_length n (d : dvec T) : dok n d -> length (dden n d) = n.
Proof.
  intros (_ & H & _). unfold dden. destruct (hom d) eqn:E.
  - apply repeat_length.
  - destruct (H eq_refl) as (l & El & <-). unfold vlist. rewrite El. reflexivity.
Qed.
Lemma dok_rep n (d : dvec T) : dok n d -> exists e, drep n e d.
Proof.
  intros H. exists (fun i => nth i (dden n d) (t0 O)). split; [exact H|].
  pose proof (list_fun (t0 O) (dden n d)) as E. rewrite (dden_length _ _ H) in E. exact E.
Qed.

(** the two storage forms *)
Lemma drep_cases n e d : drep n e d ->
  (exists a o, d = DV true true a o /\ (forall l, o = Some l -> length l = n) /\ map e (seq 0 n) = map (fun _ => a) (seq 0 n)) \/
  (exists a, d = DV true false a (Some (map e (seq 0 n)))).
Proof.
  destruct d as [i h a o]. intros ((Hi & Hh & Hl) & E). simpl in *. subst i. unfold dden in E. simpl in E.
  destruct h.
  - left. exists a, o. repeat split; auto. rewrite <- E. apply repeat_map.
  - right. exists a. destruct (Hh eq_refl) as (l & -> & _). unfold vlist in E. simpl in E. rewrite E. reflexivity.
Qed.
Lemma map_seq_length n (e : nat -> T) : length (map e (seq 0 n)) = n.
Proof. rewrite map_length. apply seq_length. Qed.
Lemma dok_hom n a o : (forall l, o = Some l -> length l = n) -> dok n (DV (T:=T) true true a o).
Proof. intros H. split; [reflexivity|split; [discriminate|exact H]]. Qed.
Lemma dok_arr n (a : T) e : dok n (DV true false a (Some (map e (seq 0 n)))).
Proof.
  split; [reflexivity|]. simpl. split; [intros _; eexists; split; [reflexivity|] | intros l [= <-]]; apply map_seq_length.
Qed.
Lemma drep_hom n a o e : (forall l, o = Some l -> length l = n) -> (forall i, In i (seq 0 n) -> e i = a) ->
  drep n e (DV true true a o).
Proof.
  intros H E. split; [apply dok_hom; exact H|]. unfold dden. simpl. rewrite repeat_map. apply map_ext_in. intros; symmetry; auto.
Qed.
Lemma drep_arr n a e f : (forall i, In i (seq 0 n) -> e i = f i) -> drep n e (DV true false a (Some (map f (seq 0 n)))).
Proof. intros E. split; [apply dok_arr|]. unfold dden, vlist. simpl. symmetry. apply map_ext_in, E. Qed.
Lemma drep_arr' n a e l : l = map e (seq 0 n) -> drep n e (DV true false a (Some l)).
Proof. intros ->. apply drep_arr; auto. Qed.
Lemma drep_ext n e f d : (forall i, In i (seq 0 n) -> e i = f i) -> drep n e d -> drep n f d.
Proof. intros H [K1 K2]. split; [exact K1|]. rewrite K2. apply map_ext_in, H. Qed.
Lemma const_in n (e : nat -> T) a : map e (seq 0 n) = map (fun _ => a) (seq 0 n) -> forall i, In i (seq 0 n) -> e i = a.
Proof.
  intros H i Hi. apply (f_equal (fun l => nth_error l i)) in H.
  apply in_seq in Hi.
  rewrite !nth_error_map in H.
  assert (K : nth_error (seq 0 n) i = Some i).
  { rewrite nth_error_nth' with (d := 0) by (rewrite seq_length; lia). rewrite seq_nth by lia. reflexivity. }
  rewrite K in H. simpl in H. congruence.
Qed.
Lemma drep_0 e (d : dvec T) : dok 0 d -> drep 0 e d.
Proof. intros H. split; [exact H|]. pose proof (dden_length _ _ H). destruct (dden 0 d); [reflexivity|discriminate]. Qed.

(** laws of the number type that both doubles and reals have *)
Record laws : Prop := {
  l_comm : forall x y, tmul O x y = tmul O y x;
  l_1 : forall x, tmul O (t1 O) x = x;
  l_eq1 : forall x, teq O x (t1 O) = true -> x = t1 O;
  l_10 : teq O (t1 O) (t0 O) = false;
  l_irr : forall x, tlt O x x = false
}.
Context (L : laws).

Ltac two H := apply drep_cases in H; destruct H as [(? & ? & -> & ? & H) | (? & ->)]; [pose proof (const_in _ _ _ H)|].
Ltac fin := first [apply drep_hom | apply drep_arr]; auto; intros;
  repeat match goal with H : (forall i, In i _ -> _ i = _), K : In _ _ |- _ => rewrite (H _ K); clear H end; auto;
  try (match goal with H : Some _ = Some _ |- _ => injection H as <-; apply map_seq_length end).
Ltac zero n := destruct n as [|n]; [apply drep_0; match goal with H : drep _ _ ?v |- dok _ ?v => apply H end|]; cbn [Nat.eqb].

Lemma copy_rep n ex ev x v : drep n ex x -> drep n ev v -> drep n ex (d_copy x v).
Proof. intros Hx Hv. two Hx; two Hv; unfold d_copy, vlist; simpl; fin. Qed.

Lemma scal_rep n a ev v : drep n ev v -> drep n (fun i => tmul O (ev i) a) (d_scal O a v).
Proof.
  intros Hv. unfold d_scal. destruct (teq O a (t1 O)) eqn:E.
  - apply (drep_ext _ ev); [|exact Hv]. intros. rewrite (l_eq1 L _ E), (l_comm L), (l_1 L). reflexivity.
  - two Hv; unfold vlist; simpl; lists; fin. apply (l_comm L).
Qed.
Lemma set_rep n a v : drep n (fun _ => a) (d_set a v).
Proof. unfold d_set. apply drep_hom; auto. discriminate. Qed.

Lemma div_rep n ex ev x v : drep n ex x -> drep n ev v -> drep n (fun i => tdiv O (ev i) (ex i)) (d_div O n x v).
Proof. intros Hx Hv. unfold d_div. zero n. two Hx; two Hv; unfold vlist; cbn [hom scal vals]; cbv iota; lists; fin. Qed.
Lemma emax_rep n ex ev x v : drep n ex x -> drep n ev v -> drep n (fun i => tmax O (ev i) (ex i)) (d_emax O n x v).
Proof. intros Hx Hv. unfold d_emax. zero n. two Hx; two Hv; unfold vlist; cbn [hom scal vals]; cbv iota; lists; fin. Qed.
Lemma emin_rep n ex ev x v : drep n ex x -> drep n ev v -> drep n (fun i => tmin O (ev i) (ex i)) (d_emin O n x v).
Proof. intros Hx Hv. unfold d_emin. zero n. two Hx; two Hv; unfold vlist; cbn [hom scal vals]; cbv iota; lists; fin. Qed.
Lemma mul_rep n ex ev x v : drep n ex x -> drep n ev v -> drep n (fun i => tmul O (ev i) (ex i)) (d_mul O n x v).
Proof.
  intros Hx Hv. unfold d_mul. zero n.
  two Hx; two Hv; unfold vlist; cbn [hom scal vals]; cbv iota; lists; try solve [fin].
  destruct (teq O x0 (t1 O)) eqn:E; cbn [negb]; cbv iota; fin.
  rewrite (l_eq1 L _ E), (l_comm L), (l_1 L). reflexivity.
Qed.
Lemma map_rep n f ev v : drep n ev v -> drep n (fun i => f (ev i)) (d_map n f v).
Proof. intros Hv. unfold d_map. two Hv; unfold vlist; simpl; lists; fin. Qed.
Lemma recip_rep n ev v : drep n ev v -> drep n (fun i => tdiv O (t1 O) (ev i)) (d_recip O n v).
Proof. intros Hv. unfold d_recip. zero n. apply map_rep, Hv. Qed.
Lemma addscalar_rep n a ev v : drep n ev v -> drep n (fun i => tadd O (ev i) a) (d_addscalar O n a v).
Proof.
  intros Hv. unfold d_addscalar, blas_axpy. rewrite (l_10 L). two Hv; unfold vlist; simpl; lists; fin.
  rewrite (l_1 L). reflexivity.
Qed.
Lemma addquot_rep n junk a ez ez' c ev z s v : length junk = n -> drep n ez z -> drep n ez' s -> drep n ev v ->
  drep n (fun i => if teq O c (t0 O) then tdiv O (tmul O a (ez i)) (ez' i)
                   else tadd O (tmul O c (ev i)) (tdiv O (tmul O a (ez i)) (ez' i))) (d_addquot O n junk a z s c v).
Proof.
  intros J Hz Hs Hv. unfold d_addquot. zero n.
  pose proof (list_fun (t0 O) junk) as Ej. rewrite J in Ej.
  two Hz; two Hs; two Hv; unfold vlist, allocated; cbn [hom scal vals];
  destruct (teq O c (t0 O)) eqn:E; cbv iota; cbn [andb orb]; lists; fin; try discriminate;
  try rewrite (l_comm L x1); try rewrite (l_comm L _ a); auto.
Qed.
Lemma setvalues_rep n l v : length l = n -> drep n (fun i => nth i l (t0 O)) (d_setvalues l v).
Proof.
  intros H. unfold d_setvalues. apply drep_arr'. pose proof (list_fun (t0 O) l) as E. rewrite H in E. exact E.
Qed.

(** storage-exact statements of the remaining dense operations *)
Lemma values_rep n junk ev v : drep n ev v -> drep n ev (d_values n junk v).
Proof.
  intros Hv. unfold d_values, allocated. two Hv; simpl; lists; fin.
Qed.
Lemma write_dden n junk k (a : T) v : dok n v -> dok n (d_write n junk k a v) /\ dden n (d_write n junk k a v) = upd k a (dden n v).
Proof.
  intros H. destruct (dok_rep _ _ H) as [e He]. pose proof (values_rep n junk e v He) as [W1 W2].
  destruct He as [_ He]. unfold d_write.
  assert (Hh : hom (d_values n junk v) = false) by (unfold d_values; destruct (init v && hom v); reflexivity).
  assert (E : vlist (d_values n junk v) = map e (seq 0 n)) by (rewrite <- W2; unfold dden; rewrite Hh; reflexivity).
  rewrite E, He. split.
  - split; [reflexivity|]; simpl; split; [intros _; eexists; split; [reflexivity|]| intros l [= <-]]; rewrite upd_length; apply map_seq_length.
  - reflexivity.
Qed.
Lemma copyfrompos_dden n nx junk pos (x v : dvec T) : dok n v -> dok nx x -> pos + n <= nx ->
  dok n (d_copyfrompos n junk pos x v) /\ dden n (d_copyfrompos n junk pos x v) = firstn n (skipn pos (dden nx x)).
Proof.
  intros Hv Hx Hp. unfold d_copyfrompos, dden at 2. destruct (hom x) eqn:E.
  - split; [apply (set_rep n (scal x) v)|]. unfold dden, d_set; simpl.
    assert (K : forall k m, m <= k -> firstn m (repeat (scal x) k) = repeat (scal x) m).
    { clear. induction k; intros [|m] H; simpl; auto; try lia. f_equal. apply IHk. lia. }
    assert (K2 : forall k m, skipn k (repeat (scal x) m) = repeat (scal x) (m - k)).
    { clear. induction k; intros [|m]; simpl; auto. }
    rewrite K2, K by lia. reflexivity.
  - unfold dden; simpl. split; [|reflexivity].
    assert (Hl : length (firstn n (skipn pos (vlist x))) = n).
    { rewrite firstn_length, skipn_length. pose proof (dden_length _ _ Hx) as K. unfold dden in K. rewrite E in K. lia. }
    split; [reflexivity|]; simpl; split; [intros _; eexists; split; [reflexivity|exact Hl]| intros l [= <-]; exact Hl].
Qed.
End Gen.
