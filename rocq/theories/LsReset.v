(** The limit on filter resets has no effect: with the default options there are
    histories with any number of heuristic resets. *)
From Coq Require Import List Bool ZArith Reals Lra Lia.
From Flocq Require Import IEEE754.BinarySingleNaN.
From Verif Require Import Num FilterModel FilterProofs LsModel LsSpec LsProofs LsHist.
Import ListNotations.

(** Leibniz equality of numbers, decided *)
Definition sf_eqb (a b : SpecFloat.spec_float) : bool :=
  match a, b with
  | SpecFloat.S754_zero s, SpecFloat.S754_zero t => Bool.eqb s t
  | SpecFloat.S754_infinity s, SpecFloat.S754_infinity t => Bool.eqb s t
  | SpecFloat.S754_nan, SpecFloat.S754_nan => true
  | SpecFloat.S754_finite s m e, SpecFloat.S754_finite t n f => Bool.eqb s t && Pos.eqb m n && Z.eqb e f
  | _, _ => false
  end.
Lemma sf_eqb_eq a b : sf_eqb a b = true -> a = b.
Proof.
  destruct a as [s|s| |s m e]; destruct b as [t|t| |t n f]; cbn; try discriminate; auto.
  - intros H. apply eqb_prop in H. congruence.
  - intros H. apply eqb_prop in H. congruence.
  - rewrite !andb_true_iff. intros [[H1 H2] H3]. apply eqb_prop in H1. apply Pos.eqb_eq in H2. apply Z.eqb_eq in H3. congruence.
Qed.
Definition num_is (x y : num) : bool := sf_eqb (B2SF x) (B2SF y).
Lemma num_is_eq x y : num_is x y = true -> x = y.
Proof. intros H. apply sf_eqb_eq in H. apply B2SF_inj. exact H. Qed.

Fixpoint nums_are (l m : list num) : bool :=
  match l, m with [], [] => true | x :: l, y :: m => num_is x y && nums_are l m | _, _ => false end.
Lemma nums_are_eq l : forall m, nums_are l m = true -> l = m.
Proof.
  induction l as [|x l IH]; intros [|y m]; cbn [nums_are]; try discriminate; auto.
  intros H. apply andb_true_iff in H. destruct H as [H1 H2]. apply num_is_eq in H1. apply IH in H2. congruence.
Qed.
Fixpoint filters_are (f g : filter) : bool :=
  match f, g with [], [] => true | x :: f, y :: g => nums_are (evals x) (evals y) && Z.eqb (eiter x) (eiter y) && filters_are f g | _, _ => false end.
Lemma filters_are_eq f : forall g, filters_are f g = true -> f = g.
Proof.
  induction f as [|[v i] f IH]; intros [|[w j] g]; cbn [filters_are evals eiter]; try discriminate; auto.
  rewrite !andb_true_iff. intros [[H1 H2] H3]. apply nums_are_eq in H1. apply Z.eqb_eq in H2. apply IH in H3. congruence.
Qed.
Definition acc_is (a b : acc) : bool :=
  num_is (ref_theta a) (ref_theta b) && num_is (ref_barr a) (ref_barr b) && num_is (ref_gbd a) (ref_gbd b) &&
  num_is (wd_theta a) (wd_theta b) && num_is (wd_barr a) (wd_barr b) && num_is (wd_gbd a) (wd_gbd b) &&
  num_is (theta_min a) (theta_min b) && num_is (theta_max a) (theta_max b) &&
  Bool.eqb (last_rej a) (last_rej b) && Z.eqb (succ_rej a) (succ_rej b) && Z.eqb (n_resets a) (n_resets b) && filters_are (flt a) (flt b).
Lemma acc_is_eq a b : acc_is a b = true -> a = b.
Proof.
  unfold acc_is. rewrite !andb_true_iff. intros [[[[[[[[[[[H1 H2] H3] H4] H5] H6] H7] H8] H9] H10] H11] H12].
  apply num_is_eq in H1, H2, H3, H4, H5, H6, H7, H8. apply eqb_prop in H9. apply Z.eqb_eq in H10, H11. apply filters_are_eq in H12.
  destruct a, b; cbn in *; congruence.
Qed.

(** the options' default values (IpFilterLSAcceptor.cpp 32-205) *)
Definition dflt : aopts :=
  AOpts (nofZ 10000) (nrat 1 10000) (nrat 1 100000000) none (nrat 23 10) (nrat 11 10) (nrat 1 100000000) (nrat 1 100000)
        (nrat 5 100) 4 (nrat 99 100) 5 5 (nofZ 5).

Section W.
Variables (pw : num -> num -> num) (log10 : num -> num).

(** a line search in which a trial point is rejected by the filter and the next one accepted *)
Definition search : list aop :=
  [AInitLS false (nofZ 10) (nofZ 10) none; ACheck none (Some (nofZ 5)) (Some (nofZ 5)); ACheck (nrat 1 2) (Some (nrat 1 2)) (Some (nrat 1 2))].
(** a point that enters the filter, then five such searches *)
Definition block : list aop :=
  [AInitLS false none none none; APrepareResto 7] ++ search ++ search ++ search ++ search ++ search.
Fixpoint blocks (n : nat) : list aop := match n with O => [] | S n => block ++ blocks n end.

Definition junk : acc := Acc nzero nzero nzero nzero nzero nzero nzero nzero false 0 0 [].
Definition s1 : acc := a_run pw log10 dflt (a_initialize junk) block.

Lemma block_again : a_run pw log10 dflt s1 block = s1.
Proof. apply acc_is_eq. vm_compute. reflexivity. Qed.
Definition fired_is (s : acc) (l : list aop) (n : Z) : bool := Z.eqb (count is_fired (a_outs pw log10 dflt s l)) n.
Lemma block_fires : count is_fired (a_outs pw log10 dflt s1 block) = 1%Z.
Proof. apply Z.eqb_eq. vm_compute. reflexivity. Qed.
Lemma block_fires0 : count is_fired (a_outs pw log10 dflt (a_initialize junk) block) = 1%Z.
Proof. apply Z.eqb_eq. vm_compute. reflexivity. Qed.

Lemma run_app l : forall s m, a_run pw log10 dflt s (l ++ m) = a_run pw log10 dflt (a_run pw log10 dflt s l) m.
Proof. induction l as [|c l IH]; intros s m; [reflexivity|]. cbn [app a_run]. apply IH. Qed.
Lemma outs_app l : forall s m, a_outs pw log10 dflt s (l ++ m) = a_outs pw log10 dflt s l ++ a_outs pw log10 dflt (a_run pw log10 dflt s l) m.
Proof. induction l as [|c l IH]; intros s m; [reflexivity|]. cbn [app a_run a_outs]. f_equal. apply IH. Qed.
Lemma count_app f l m : count f (l ++ m) = (count f l + count f m)%Z.
Proof. unfold count. rewrite filter_app, app_length. lia. Qed.

Lemma blocks_fire n : count is_fired (a_outs pw log10 dflt s1 (blocks n)) = Z.of_nat n.
Proof.
  induction n as [|n IH]; [reflexivity|]. cbn [blocks]. rewrite outs_app, count_app, block_again, block_fires, IH. lia.
Qed.
Lemma blocks_from (s t : acc) n : a_run pw log10 dflt s block = t -> count is_fired (a_outs pw log10 dflt s block) = 1%Z ->
  count is_fired (a_outs pw log10 dflt t (blocks n)) = Z.of_nat n -> count is_fired (a_outs pw log10 dflt s (blocks (S n))) = Z.of_nat (S n).
Proof. intros <- B C. cbn [blocks]. rewrite outs_app, count_app, B, C. clear. lia. Qed.
Lemma many n : count is_fired (a_outs pw log10 dflt junk (AInit :: blocks (S n))) = Z.of_nat (S n).
Proof.
  remember (S n) as m eqn:M. cbn [a_outs]. rewrite count_cons.
  replace (a_next pw log10 dflt junk AInit) with (a_initialize junk) by reflexivity.
  replace (is_fired (a_out pw log10 dflt junk AInit)) with false by reflexivity.
  rewrite M. exact (blocks_from (a_initialize junk) s1 n eq_refl block_fires0 (blocks_fire n)).
Qed.

Lemma blocks_wf n : Forall aop_wf (blocks n).
Proof.
  induction n as [|n IH]; [constructor|]. cbn [blocks]. apply Forall_app. split; [|exact IH].
  unfold block, search. cbn [app]. repeat constructor; vm_compute; reflexivity.
Qed.
End W.

Lemma pos_by_compute x : nlt nzero x = true -> (0 < key x)%R.
Proof. intros H. apply nlt_iff in H. rewrite key_nzero in H. apply H. Qed.
Lemma le1_by_compute x : nle x none = true -> (key x <= 1)%R.
Proof. intros H. apply nle_iff in H. rewrite key_none in H. apply H. Qed.
Lemma dflt_wf : aopts_wf dflt.
Proof.
  unfold aopts_wf. split; [vm_compute; reflexivity|]. split; [vm_compute; reflexivity|]. split.
  { split; [apply Rlt_le, pos_by_compute|apply le1_by_compute]; vm_compute; reflexivity. }
  split; [vm_compute; reflexivity|]. split; [apply pos_by_compute; vm_compute; reflexivity|].
  split; [vm_compute; reflexivity|]. apply pos_by_compute; vm_compute; reflexivity.
Qed.
