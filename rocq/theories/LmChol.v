(** A Cholesky factorisation in exact arithmetic: the assumptions on LAPACK can be met. *)
From Coq Require Import List Bool Arith Reals Lia Lra Psatz.
From Flocq Require Import Core.Raux.
From Verif Require Import LmModel LmSpec LmProofs LmCompact.
Import ListNotations.
Local Open Scope R_scope.

Fixpoint cholC (k : nat) (J : nat -> nat -> R) : nat -> nat -> R :=
  match k with
  | O => fun _ _ => 0
  | S k => let C := cholC k J in fun i j =>
      if (j <? k)%nat then if (i <? k)%nat then C i j else 0
      else if (i <? k)%nat then - (sumn k (fun l => C i l * J k l) / J k k) else 1 / J k k
  end.
Definition choltri (k : nat) (J : nat -> nat -> R) : Prop :=
  (forall i j, (i < j)%nat -> (j < k)%nat -> J i j = 0) /\ (forall i, (i < k)%nat -> 0 < J i i).
Lemma cholC_ok J : forall k, choltri k J -> forall i j, (i < k)%nat -> (j < k)%nat ->
  sumn k (fun l => J l i * cholC k J l j) = delta i j /\ sumn k (fun l => cholC k J i l * J j l) = delta i j.
Proof.
  induction k as [|k IH]; intros [HT HP] i j Hi Hj; [lia|].
  assert (IH' : forall i j, (i < k)%nat -> (j < k)%nat -> sumn k (fun l => J l i * cholC k J l j) = delta i j /\ sumn k (fun l => cholC k J i l * J j l) = delta i j).
  { intros; apply IH; auto. split; intros; [apply HT|apply HP]; lia. }
  clear IH. set (C := cholC k J) in *. pose proof (HP k ltac:(lia)) as Hd. cbn [cholC sumn]. fold C.
  rewrite Nat.ltb_irrefl.
  assert (Bt : forall l, (l < k)%nat -> (l <? k)%nat = true) by (intros; apply Nat.ltb_lt; assumption).
  destruct (Nat.eq_dec i k) as [->|Ni], (Nat.eq_dec j k) as [->|Nj].
  - rewrite Nat.ltb_irrefl. unfold delta. rewrite Nat.eqb_refl. split.
    + rewrite sumn_zero by (intros l Hl; rewrite (HT l k) by lia; ring). field. lra.
    + rewrite sumn_zero by (intros l Hl; rewrite (Bt l Hl); ring). field. lra.
  - rewrite (Bt j ltac:(lia)). unfold delta. replace (k =? j)%nat with false by (symmetry; apply Nat.eqb_neq; lia).
    rewrite Nat.ltb_irrefl. split.
    + rewrite sumn_zero by (intros l Hl; rewrite (HT l k) by lia; ring). ring.
    + rewrite sumn_zero by (intros l Hl; rewrite (Bt l Hl); ring). rewrite (HT j k) by lia. ring.
  - rewrite Nat.ltb_irrefl, (Bt i ltac:(lia)). unfold delta. replace (i =? k)%nat with false by (symmetry; apply Nat.eqb_neq; lia). split.
    + rewrite (sumn_ext k _ (fun l => - (1 / J k k) * (J l i * sumn k (fun m => C l m * J k m)))).
      2:{ intros l Hl. rewrite (Bt l Hl). field. lra. }
      rewrite sumn_mult.
      rewrite (sumn_ext k _ (fun l => sumn k (fun m => J k m * (J l i * C l m)))).
      2:{ intros l _. rewrite <- sumn_mult. apply sumn_ext. intros; ring. }
      rewrite sumn_swap. rewrite (sumn_ext k _ (fun m => J k m * delta m i)).
      2:{ intros m Hm. rewrite sumn_mult, (proj1 (IH' i m ltac:(lia) Hm)), delta_sym. reflexivity. }
      rewrite sumn_delta by lia. field. lra.
    + rewrite (sumn_ext k _ (fun l => C i l * J k l)) by (intros l Hl; rewrite (Bt l Hl); reflexivity). field. lra.
  - rewrite (Bt i ltac:(lia)), (Bt j ltac:(lia)). destruct (IH' i j ltac:(lia) ltac:(lia)) as [I1 I2]. split.
    + rewrite (sumn_ext k _ (fun l => J l i * C l j)) by (intros l Hl; rewrite (Bt l Hl); reflexivity). rewrite I1. ring.
    + rewrite (sumn_ext k _ (fun l => C i l * J j l)) by (intros l Hl; rewrite (Bt l Hl); reflexivity). rewrite I2, (HT j k) by lia. ring.
Qed.
Definition cholw (k : nat) (M J : nat -> nat -> R) (j : nat) : R := sumn k (fun l => cholC k J l j * M l k).
Definition pivot (k : nat) (M J : nat -> nat -> R) : R := M k k - sumn k (fun j => cholw k M J j * cholw k M J j).
Fixpoint cholJ (k : nat) (M : nat -> nat -> R) : nat -> nat -> R :=
  match k with
  | O => fun _ _ => 0
  | S k => let J := cholJ k M in fun i j =>
      if (i <? k)%nat then if (j <? k)%nat then J i j else 0
      else if (j <? k)%nat then cholw k M J j else sqrt (pivot k M J)
  end.
Lemma cholJ_tri M : forall k, (forall m, (m < k)%nat -> 0 < pivot m M (cholJ m M)) -> choltri k (cholJ k M).
Proof.
  induction k as [|k IH]; intros H; [split; intros; lia|].
  destruct (IH (fun m Hm => H m ltac:(lia))) as [T P]. split; cbn [cholJ].
  - intros i j Hij Hj. replace (i <? k)%nat with true by (symmetry; apply Nat.ltb_lt; lia).
    destruct (j <? k)%nat eqn:E; [apply Nat.ltb_lt in E; auto|reflexivity].
  - intros i Hi. destruct (i <? k)%nat eqn:E; [apply Nat.ltb_lt in E; auto|]. apply sqrt_lt_R0. apply H. lia.
Qed.
Lemma cholJ_ok M : forall k, (forall i j, (i < k)%nat -> (j < k)%nat -> M i j = M j i) ->
  (forall m, (m < k)%nat -> 0 < pivot m M (cholJ m M)) ->
  forall i j, (i < k)%nat -> (j < k)%nat -> M i j = sumn k (fun l => cholJ k M i l * cholJ k M j l).
Proof.
  induction k as [|k IH]; intros Hs Hp i j Hi Hj; [lia|].
  assert (IH' : forall i j, (i < k)%nat -> (j < k)%nat -> M i j = sumn k (fun l => cholJ k M i l * cholJ k M j l)) by (apply IH; auto).
  pose proof (cholJ_tri M k (fun m Hm => Hp m ltac:(lia))) as Htri.
  pose proof (cholC_ok (cholJ k M) k Htri) as HC.
  set (J := cholJ k M) in *. set (C := cholC k J) in *. pose proof (Hp k ltac:(lia)) as Hd. fold J in Hd.
  assert (Bt : forall l, (l < k)%nat -> (l <? k)%nat = true) by (intros; apply Nat.ltb_lt; assumption).
  (* J w = m *)
  assert (Jw : forall i, (i < k)%nat -> sumn k (fun l => J i l * cholw k M J l) = M i k).
  { intros a Ha. unfold cholw. fold C.
    rewrite (sumn_ext k _ (fun l => sumn k (fun m => M m k * (C m l * J a l)))).
    2:{ intros l _. rewrite <- sumn_mult. apply sumn_ext. intros; ring. }
    rewrite sumn_swap. rewrite (sumn_ext k _ (fun m => M m k * delta m a)).
    2:{ intros m Hm. rewrite sumn_mult, (proj2 (HC m a Hm Ha)). reflexivity. }
    apply (sumn_delta k (fun m => M m k)). assumption. }
  cbn [cholJ sumn]. fold J. rewrite Nat.ltb_irrefl.
  destruct (Nat.eq_dec i k) as [->|Ni], (Nat.eq_dec j k) as [->|Nj].
  - rewrite Nat.ltb_irrefl. rewrite sqrt_sqrt by lra.
    rewrite (sumn_ext k _ (fun l => cholw k M J l * cholw k M J l)) by (intros l Hl; rewrite (Bt l Hl); reflexivity).
    unfold pivot. ring.
  - rewrite Nat.ltb_irrefl, (Bt j ltac:(lia)).
    rewrite (sumn_ext k _ (fun l => J j l * cholw k M J l)) by (intros l Hl; rewrite (Bt l Hl); ring).
    rewrite Jw by lia. rewrite Hs by lia. ring.
  - rewrite Nat.ltb_irrefl, (Bt i ltac:(lia)).
    rewrite (sumn_ext k _ (fun l => J i l * cholw k M J l)) by (intros l Hl; rewrite (Bt l Hl); ring).
    rewrite Jw by lia. ring.
  - rewrite (Bt i ltac:(lia)), (Bt j ltac:(lia)).
    rewrite (sumn_ext k _ (fun l => J i l * J j l)) by (intros l Hl; rewrite (Bt l Hl); reflexivity).
    rewrite (IH' i j) by lia. ring.
Qed.
Lemma pd_pivot M k : pd_matrix k M -> forall m, (m < k)%nat -> 0 < pivot m M (cholJ m M).
Proof.
  intros [Hs Hpd] m. induction m as [m IH] using lt_wf_ind. intros Hm.
  assert (Hp : forall l, (l < m)%nat -> 0 < pivot l M (cholJ l M)) by (intros l Hl; apply IH; lia).
  pose proof (cholJ_tri M m Hp) as Htri. pose proof (cholC_ok (cholJ m M) m Htri) as HC.
  pose proof (cholJ_ok M m (fun i j Hi Hj => Hs i j ltac:(lia) ltac:(lia)) Hp) as HJ.
  set (J := cholJ m M) in *. set (C := cholC m J) in *. set (w := cholw m M J).
  set (g := fun i => sumn m (fun j => C i j * w j)).
  set (a := fun i => if (i <? m)%nat then - g i else if (i =? m)%nat then 1 else 0).
  assert (Bt : forall l, (l < m)%nat -> (l <? m)%nat = true) by (intros; apply Nat.ltb_lt; assumption).
  assert (Ha1 : forall l, (l < m)%nat -> a l = - g l) by (intros l Hl; unfold a; rewrite (Bt l Hl); reflexivity).
  assert (Ha2 : a m = 1) by (unfold a; rewrite Nat.ltb_irrefl, Nat.eqb_refl; reflexivity).
  assert (Ha3 : forall l, (m < l)%nat -> a l = 0).
  { intros l Hl. unfold a. replace (l <? m)%nat with false by (symmetry; apply Nat.ltb_ge; lia). replace (l =? m)%nat with false by (symmetry; apply Nat.eqb_neq; lia). reflexivity. }
  assert (P : 0 < sumn k (fun i => sumn k (fun j => a i * M i j * a j))).
  { apply Hpd. exists m. split; [assumption|]. rewrite Ha2. lra. }
  (* M g = column m *)
  assert (Mg : forall i, (i < m)%nat -> sumn m (fun j => M i j * g j) = M i m).
  { intros i Hi.
    rewrite (sumn_ext m _ (fun j => sumn m (fun l => J i l * (J j l * g j)))).
    2:{ intros j Hj. rewrite (HJ i j Hi Hj), <- sumn_mult_r. apply sumn_ext. intros; ring. }
    rewrite sumn_swap. rewrite (sumn_ext m _ (fun l => J i l * w l)).
    2:{ intros l Hl. rewrite sumn_mult. f_equal. unfold g.
        rewrite (sumn_ext m _ (fun j => sumn m (fun p => w p * (J j l * C j p)))).
        2:{ intros j _. rewrite <- sumn_mult. apply sumn_ext. intros; ring. }
        rewrite sumn_swap. rewrite (sumn_ext m _ (fun p => w p * delta p l)).
        2:{ intros p Hp'. rewrite sumn_mult, (proj1 (HC l p Hl Hp')), delta_sym. reflexivity. }
        apply sumn_delta. assumption. }
    unfold w, cholw. fold C.
    rewrite (sumn_ext m _ (fun l => sumn m (fun q => M q m * (C q l * J i l)))).
    2:{ intros l _. rewrite <- sumn_mult. apply sumn_ext. intros; ring. }
    rewrite sumn_swap. rewrite (sumn_ext m _ (fun q => M q m * delta q i)).
    2:{ intros q Hq. rewrite sumn_mult, (proj2 (HC q i Hq Hi)). reflexivity. }
    apply (sumn_delta m (fun q => M q m)). assumption. }
  assert (Eg : sumn m (fun i => M m i * g i) = sumn m (fun j => w j * w j)).
  { unfold g. rewrite (sumn_ext m _ (fun i => sumn m (fun j => w j * (C i j * M i m)))).
    2:{ intros i Hi. rewrite <- sumn_mult. apply sumn_ext. intros j _. rewrite (Hs m i) by lia. ring. }
    rewrite sumn_swap. apply sumn_ext. intros j _. rewrite sumn_mult. reflexivity. }
  assert (Ei : forall i, (i < k)%nat -> sumn k (fun j => a i * M i j * a j) = a i * (M i m - sumn m (fun j => M i j * g j))).
  { intros i Hi. rewrite (sumn_trunc (Datatypes.S m) k); [|lia|intros j Hj; rewrite (Ha3 j) by lia; ring].
    cbn [sumn]. rewrite Ha2. rewrite (sumn_ext m _ (fun j => - a i * (M i j * g j))) by (intros j Hj; rewrite (Ha1 j Hj); ring).
    rewrite sumn_mult. ring. }
  rewrite (sumn_ext k _ _ Ei) in P.
  rewrite (sumn_trunc (Datatypes.S m) k) in P; [|lia|intros j Hj; rewrite (Ha3 j) by lia; ring].
  cbn [sumn] in P. rewrite sumn_zero in P by (intros i Hi; rewrite Mg by assumption; ring).
  rewrite Ha2, Eg in P. unfold pivot. fold w. lra.
Qed.
(** options with this factorisation *)
Definition exact_chol (k : nat) (M : nat -> nat -> R) : option (nat -> nat -> R) :=
  if forallb (fun m => Rlt_bool 0 (pivot m M (cholJ m M))) (seq 0 k) then Some (cholJ k M) else None.
Lemma exact_chol_ok o : o_chol o = exact_chol -> o_inv o = cholC -> lapack_ok o.
Proof.
  intros E1 E2 k M Hs. rewrite E1, E2. unfold exact_chol.
  destruct (forallb _ (seq 0 k)) eqn:Ef.
  - rewrite forallb_forall in Ef.
    assert (Hp : forall m, (m < k)%nat -> 0 < pivot m M (cholJ m M)).
    { intros m Hm. specialize (Ef m ltac:(apply in_seq; lia)). destruct (Rlt_bool_spec 0 (pivot m M (cholJ m M))); [assumption|discriminate]. }
    split; [|discriminate]. intros J EJ. injection EJ as <-. intros i j Hi Hj.
    split; [apply cholJ_ok; assumption|]. apply cholC_ok; auto. apply cholJ_tri. assumption.
  - split; [discriminate|]. intros Hpd. exfalso.
    assert (forallb (fun m => Rlt_bool 0 (pivot m M (cholJ m M))) (seq 0 k) = true); [|congruence].
    apply forallb_forall. intros m Hm. apply in_seq in Hm. apply Rlt_bool_true. apply (pd_pivot M k Hpd). lia.
Qed.
