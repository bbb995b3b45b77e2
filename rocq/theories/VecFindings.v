(** C20, C23, C24: cases in which the unrestricted statements are false, and
    concrete cases meeting the hypotheses of the theorems in VecProps.v. *)
From Coq Require Import List Bool Arith ZArith Reals Lia Lra.
From Flocq Require Import Core BinarySingleNaN.
From Verif Require Import Num VecModel VecSpec VecProofs VecLift VecReal VecRed VecNum VecProps.
Import ListNotations.
Local Open Scope R_scope.

(** equality of two doubles up to the sign of zero; a NaN equals a NaN *)
Definition eqv (x y : num) : bool := neqb x y || (nnan x && nnan y).
Fixpoint eqlist (l m : list num) : bool :=
  match l, m with [], [] => true | x :: l, y :: m => eqv x y && eqlist l m | _, _ => false end.
Lemma eqv_refl x : eqv x x = true.
Proof. unfold eqv, neqb, nnan, Beqb, SpecFloat.SFeqb, SpecFloat.SFcompare. destruct x as [[]|[]| |[] m e H]; auto; simpl; rewrite Z.compare_refl, Pos.compare_cont_refl; reflexivity. Qed.
Lemma eqlist_refl l : eqlist l l = true.
Proof. induction l; cbn [eqlist]; [reflexivity|]. rewrite eqv_refl. exact IHl. Qed.

Definition lg0 (x : num) : num := x.
Definition junk0 (n : nat) : list num := repeat nzero n.
Lemma junk0_length n : length (junk0 n) = n.
Proof. apply repeat_length. Qed.

(** dense vectors of one dimension *)
Definition heap (n : nat) (l : list (dvec num)) (j : nat) : vec num := Dense n (nth j l (DV true true nzero None)).
Definition dokb (n : nat) (d : dvec num) : bool :=
  init d && match vals d with Some l => Nat.eqb (length l) n | None => hom d end.
Lemma dokb_ok n d : dokb n d = true -> dok n d.
Proof.
  unfold dokb. intros H. apply andb_true_iff in H. destruct H as [H1 H2]. split; [exact H1|].
  destruct (vals d) as [l|] eqn:E.
  - apply Nat.eqb_eq in H2. split; [intros _; exists l; auto|]. intros m [= <-]; auto.
  - split; [|discriminate]. intros K. rewrite K in H2. discriminate.
Qed.
Lemma heap_ok n l : forallb (dokb n) l = true -> forall j, vok (SD n) (heap n l j).
Proof.
  intros H j. constructor. apply dokb_ok. rewrite forallb_forall in H.
  destruct (Nat.lt_ge_cases j (length l)); [apply H, nth_In; auto|]. rewrite nth_overflow by auto. reflexivity.
Qed.

(** the operation [o] on vector 0 of [h] (dense, dimension n) has not its documented effect *)
Definition wrong_effect (n : nat) (o : op num) (h : nat -> vec num) : Prop :=
  legal (fun _ => SD n) 0 o /\ (forall j, vok (SD n) (h j)) /\
  contents (exec (num_ops lg0) junk0 h 0 o) <> effect (num_ops lg0) (fun j => contents (h j)) 0 o.
Lemma wrong_by_compute n o hl : legal (fun _ => SD n) 0 o -> forallb (dokb n) hl = true ->
  eqlist (contents (exec (num_ops lg0) junk0 (heap n hl) 0 o)) (effect (num_ops lg0) (fun j => contents (heap n hl j)) 0 o) = false ->
  wrong_effect n o (heap n hl).
Proof.
  intros H1 H2 H3. split; [exact H1|]. split; [apply heap_ok, H2|]. intros E. rewrite E, eqlist_refl in H3. discriminate H3.
Qed.
Definition arr (l : list num) : dvec num := DV true false nzero (Some l).
Definition one_value (a : num) : dvec num := DV true true a None.

(** this += v2 by AddTwoVectors(0, v1, 1, v2, 1) adds Dim()*v2 (the loop over the
    elements contains a BLAS call for the whole array) *)
Definition h_two := heap 2 [arr [none; none]; arr [none; none]; arr [none; none]].
Theorem C23_add_two_vectors_refuted : wrong_effect 2 (OAddTwo nzero 1 none 2 none) h_two.
Proof. apply wrong_by_compute; [split; reflexivity| |]; vm_compute; reflexivity. Qed.
(** exactly, for all vectors stored element by element *)
Theorem C23_add_two_vectors_defect_real lg n junk v1 v2 v : (0 < n)%nat -> length junk = n ->
  dok n v1 -> dok n v2 -> dok n v -> hom v2 = false -> hom v = false ->
  dden n (d_addtwo (R_ops lg) n junk 0 false v1 1 false v2 1 v) = map2 (fun y q => y + INR n * q) (dden n v) (dden n v2).
Proof.
  intros Hn J H1 H2 H E2 E.
  destruct (dok_rep (R_ops lg) _ _ H1) as [e1 K1]. destruct (dok_rep (R_ops lg) _ _ H2) as [e2 K2]. destruct (dok_rep (R_ops lg) _ _ H) as [ev K].
  destruct (addtwo_bug lg n junk e1 e2 ev v1 v2 v Hn J K1 K2 K E2 E) as [_ B].
  rewrite B. destruct K2 as [_ K2], K as [_ K]. rewrite K, K2, map2_map. reflexivity.
Qed.

(** AddTwoVectors(1, x, 1, y, 2) with x the target itself: the target is scaled
    before x is read *)
Definition h_alias := heap 2 [one_value none; arr [none; none]; arr [none; none]].
Theorem C23_add_two_vectors_alias_refuted : wrong_effect 2 (OAddTwo none 0 none 1 (nofZ 2)) h_alias.
Proof. apply wrong_by_compute; [split; reflexivity| |]; vm_compute; reflexivity. Qed.

(** ElementWiseSelect with a selector that is not -1, 0, 1 *)
Definition h_sel1 := heap 2 [one_value (nofZ 2); one_value (nofZ 3)].
Definition h_sel2 := heap 2 [arr [nofZ 2; nofZ 2]; one_value none].
Theorem C23_select_refuted : wrong_effect 2 (OSel 1) h_sel1 /\ wrong_effect 2 (OSel 1) h_sel2.
Proof. split; (apply wrong_by_compute; [reflexivity| |]; vm_compute; reflexivity). Qed.

(** two heaps of dense vectors with the same elements on which [o] has different results *)
Definition storage_shows (n : nat) (o : op num) (h h' : nat -> vec num) : Prop :=
  legal (fun _ => SD n) 0 o /\ (forall j, vok (SD n) (h j)) /\ (forall j, vok (SD n) (h' j)) /\
  (forall j, contents (h j) = contents (h' j)) /\
  contents (exec (num_ops lg0) junk0 h 0 o) <> contents (exec (num_ops lg0) junk0 h' 0 o).
Lemma shows_by_compute n o hl hl' : legal (fun _ => SD n) 0 o -> forallb (dokb n) hl = true -> forallb (dokb n) hl' = true ->
  map (dden n) hl = map (dden n) hl' ->
  eqlist (contents (exec (num_ops lg0) junk0 (heap n hl) 0 o)) (contents (exec (num_ops lg0) junk0 (heap n hl') 0 o)) = false ->
  storage_shows n o (heap n hl) (heap n hl').
Proof.
  intros H1 H2 H3 H4 H5. split; [exact H1|]. split; [apply heap_ok, H2|]. split; [apply heap_ok, H3|]. split.
  - intros j. unfold heap. cbn [contents].
    rewrite <- (map_nth (dden n) hl), <- (map_nth (dden n) hl'), H4. reflexivity.
  - intros E. rewrite E, eqlist_refl in H5. discriminate H5.
Qed.

(** y <- y + 0*x with x infinite: NaN or y, depending on the storage of x and y *)
Theorem C23_axpy_infinity_refuted : exists h h', storage_shows 1 (OAxpy nzero 1) h h'.
Proof.
  exists (heap 1 [one_value none; one_value ninf]), (heap 1 [arr [none]; one_value ninf]).
  apply shows_by_compute; [reflexivity| | |reflexivity|]; vm_compute; reflexivity.
Qed.
(** the rounding of AddTwoVectors depends on the storage: 1 + 2^-53 + 2^-53 *)
Definition tiny53 : num := nrat 1 (2 ^ 53).
Theorem C23_add_two_vectors_rounding_refuted : exists h h', storage_shows 1 (OAddTwo none 1 none 2 none) h h'.
Proof.
  exists (heap 1 [one_value none; one_value tiny53; one_value tiny53]), (heap 1 [arr [none]; arr [tiny53]; arr [tiny53]]).
  apply shows_by_compute; [split; reflexivity| | |reflexivity|]; vm_compute; reflexivity.
Qed.

Lemma neq_by_compute (a b : num) : eqv a b = false -> a <> b.
Proof. intros H E. rewrite E, eqv_refl in H. discriminate H. Qed.
(** ten times 0.1: Sum() is 1 if stored as one value and less if stored element by element *)
Definition tenth : num := nrat 1 10.
Theorem C23_sum_rounding_refuted : exists v v' : vec num, vok (SD 10) v /\ vok (SD 10) v' /\ contents v = contents v' /\
  v_sum (num_ops lg0) v <> v_sum (num_ops lg0) v'.
Proof.
  exists (Dense 10 (one_value tenth)), (Dense 10 (arr (repeat tenth 10))).
  split; [constructor; apply dokb_ok; vm_compute; reflexivity|]. split; [constructor; apply dokb_ok; vm_compute; reflexivity|].
  split; [reflexivity|]. apply neq_by_compute. vm_compute. reflexivity.
Qed.

(** CopyToPos with a source stored as one value writes the target's old scalar_
    (here 5, left from an earlier Set) instead of the source's value *)
Definition stale : dvec num := d_values 3 [] (d_set (nofZ 5) (arr [none; none; none])).
Theorem C23_copy_to_pos_refuted : dok 3 stale /\ dok 2 (one_value (nofZ 7)) /\
  dden 3 (d_copytopos (junk0 3) 0 2 (one_value (nofZ 7)) stale) <> blit 0 (dden 2 (one_value (nofZ 7))) (dden 3 stale).
Proof.
  split; [apply dokb_ok; vm_compute; reflexivity|]. split; [apply dokb_ok; vm_compute; reflexivity|].
  intros E. assert (K : eqlist (dden 3 (d_copytopos (junk0 3) 0 2 (one_value (nofZ 7)) stale)) (blit 0 (dden 2 (one_value (nofZ 7))) (dden 3 stale)) = false) by (vm_compute; reflexivity).
  rewrite E, eqlist_refl in K. discriminate K.
Qed.
(** what does hold: source and target stored element by element *)
Theorem C23_copy_to_pos_partial {T} n nx pos (junk : list T) (x v : dvec T) : dok n v -> dok nx x ->
  hom x = false -> hom v = false -> (pos + nx <= n)%nat ->
  dok n (d_copytopos junk pos nx x v) /\
  dden n (d_copytopos junk pos nx x v) = firstn pos (dden n v) ++ dden nx x ++ skipn (pos + nx) (dden n v).
Proof.
  intros Hv Hx Ex Ev Hp. destruct Hv as (Iv & Lv & _), Hx as (_ & Lx & _).
  destruct (Lv Ev) as (l & El & Ll). destruct (Lx Ex) as (m & Em & Lm).
  unfold d_copytopos, dden, vlist, allocated. cbn [hom vals scal]. cbv iota. rewrite Ex, Ev, Em, El. unfold blit. rewrite Lm.
  split; [|reflexivity]. unfold dok. cbn [hom vals scal init].
  assert (length (firstn pos l ++ m ++ skipn (pos + nx) l) = n) by (rewrite !app_length, firstn_length, skipn_length; lia).
  split; [reflexivity|]. split; [intros _; eexists; split; [reflexivity|]|intros k [= <-]]; assumption.
Qed.

(** ** C24 *)
(** Max() of a compound vector whose elements are all -inf is -DBL_MAX *)
Theorem C24_max_infinity_refuted : exists v v' : vec num, vok (SC [SD 1]) v /\ vok (SD 1) v' /\ contents v = contents v' /\
  v_max (num_ops lg0) v <> v_max (num_ops lg0) v'.
Proof.
  exists (Comp [Dense 1 (arr [nninf])]), (Dense 1 (arr [nninf])).
  assert (vok (SD 1) (Dense 1 (arr [nninf]))) by (constructor; apply dokb_ok; vm_compute; reflexivity).
  split; [constructor; repeat constructor; auto; apply dokb_ok; reflexivity|]. split; [auto|]. split; [reflexivity|].
  apply neq_by_compute. vm_compute. reflexivity.
Qed.
(** Amax() with a NaN: found or lost, depending on the partition *)
Theorem C24_amax_nan_refuted : exists v v' : vec num, vok (SC [SD 1; SD 1]) v /\ vok (SD 2) v' /\ contents v = contents v' /\
  v_amax (num_ops lg0) v <> v_amax (num_ops lg0) v'.
Proof.
  exists (Comp [Dense 1 (arr [NaN]); Dense 1 (arr [none])]), (Dense 2 (arr [NaN; none])).
  split; [constructor; repeat constructor; apply dokb_ok; reflexivity|].
  split; [constructor; apply dokb_ok; reflexivity|]. split; [reflexivity|].
  apply neq_by_compute. vm_compute. reflexivity.
Qed.

(** ** C20 *)
(** With a tiny negative d_i the quotient tau/|d_i| overflows, the step is 1 and
    the new point is outside *)
Definition x_tiny : num := ndiv (nrat 1 (2 ^ 1000)) (nofZ (2 ^ 74)).       (* 2^-1074 *)
Definition d_tiny : num := nopp (ndiv (nrat 1 (2 ^ 1000)) (nofZ (2 ^ 30))).  (* -2^-1030 *)
Definition tau99 : num := nrat 99 100.
Theorem C20_stays_interior_refuted : exists d x : vec num, vok (SD 1) d /\ vok (SD 1) x /\
  nlt nzero tau99 = true /\ nlt tau99 none = true /\
  (exists x0 d0, contents x = [x0] /\ contents d = [d0] /\ nlt nzero x0 = true /\ nfin x0 = true /\ nfin d0 = true /\
   key x0 + key (v_frac (num_ops lg0) tau99 d x) * key d0 < 0).
Proof.
  exists (Dense 1 (arr [d_tiny])), (Dense 1 (arr [x_tiny])).
  split; [constructor; apply dokb_ok; reflexivity|]. split; [constructor; apply dokb_ok; reflexivity|].
  split; [vm_compute; reflexivity|]. split; [vm_compute; reflexivity|].
  exists x_tiny, d_tiny. split; [reflexivity|]. split; [reflexivity|].
  split; [vm_compute; reflexivity|]. split; [vm_compute; reflexivity|]. split; [vm_compute; reflexivity|].
  replace (key (v_frac (num_ops lg0) tau99 (Dense 1 (arr [d_tiny])) (Dense 1 (arr [x_tiny])))) with 1.
  - assert (K : nlt x_tiny (nopp d_tiny) = true) by (vm_compute; reflexivity).
    apply nlt_iff in K. destruct K as (_ & _ & K). rewrite key_opp in K. lra.
  - assert (K : neqb (v_frac (num_ops lg0) tau99 (Dense 1 (arr [d_tiny])) (Dense 1 (arr [x_tiny]))) none = true) by (vm_compute; reflexivity).
    apply neqb_iff in K. destruct K as (_ & _ & K). rewrite K. symmetry. apply key_none.
Qed.

(** ** Concrete cases *)
(** compound vectors with a component of each storage, a program using every kind
    of operation *)
Definition ex_sp (j : nat) : space := SC [SD 2; SC [SD 1; SD 3]].
Definition ex_vec (a b : R) : vec R :=
  Comp [Dense 2 (DV true true a None); Comp [Dense 1 (DV true false b (Some [b])); Dense 3 (DV true false a (Some [a; b; a * b]))]].
Definition ex_h (j : nat) : vec R := ex_vec (INR j + 2) (- INR j - 1).
Definition ex_p : list (nat * op R) :=
  [(0%nat, OAddTwo 2 1 (-1) 2 1); (1%nat, OAddQuot 3 0 2 0); (2%nat, OSgn); (2%nat, OSel 1); (0%nat, OMax 2); (3%nat, OAxpy (-1) 0); (3%nat, OCopy 1); (3%nat, ORecip)].
Example ex_h_ok : forall j, vok (ex_sp j) (ex_h j).
Proof.
  intros j. unfold ex_h, ex_vec, ex_sp.
  constructor. repeat constructor; cbn [hom vals init]; try discriminate; try (intros; eexists; split; reflexivity); try (intros l [= <-]; reflexivity).
Qed.
Example ex_p_legal : legal_prog ex_sp ex_p.
Proof. unfold legal_prog, ex_p, ex_sp. repeat constructor; cbn [legal fst snd]; auto. Qed.
Lemma sign_pm1 lg y : pm1 (sign (R_ops lg) y).
Proof. unfold sign, pm1. cbn [tlt t0 t1 tm1 R_ops]. destruct (Rlt_bool 0 y), (Rlt_bool y 0); auto. Qed.
Example ex_p_safe lg : safe_prog lg (fun j => contents (ex_h j)) ex_p.
Proof.
  unfold ex_p. cbn [safe_prog safe]. repeat split; auto; try lra; try (intros [? [? ?]]; lra).
  unfold lset at 1 2. cbn [Nat.eqb]. cbn [effect]. apply Forall_forall. intros y Hy.
  apply in_map_iff in Hy. destruct Hy as (z & <- & _). apply sign_pm1.
Qed.
Example ex_frac : vok (SD 2) (Dense 2 (arr [none; none])) /\ nfin tau99 = true /\
  Forall (fun x => nfin x = true /\ nlt nzero x = true) (contents (Dense 2 (arr [none; none]))).
Proof.
  split; [constructor; apply dokb_ok; reflexivity|]. split; [vm_compute; reflexivity|].
  repeat constructor; vm_compute; reflexivity.
Qed.

Print Assumptions C23_operations_real.
Print Assumptions C23_operations_double.
Print Assumptions C24_extrema_double.
Print Assumptions C20_stays_interior_double.
Print Assumptions C23_add_two_vectors_refuted.
Print Assumptions C23_copy_to_pos_partial.
