(** C19: the monotone barrier parameter update. Vocabulary in MuSpec.v. *)
From Coq Require Import List Bool ZArith Reals Lra Lia.
From Flocq Require Import Core BinarySingleNaN.
From Verif Require Import Num MuModel MuSpec MuProofs.
Import ListNotations.
Open Scope R_scope.

Lemma update_range pw o c fuel s : valid_mopts o -> valid_call c -> good o s ->
  let s' := state_of (update pw o fuel c s) in
  good o s' /\ (mu s' = mu s \/ (limit o c <= key (mu s') <= Rmax (limit o c) (key (mu s)))).
Proof. intros V C G. apply loop_range; auto. Qed.

Lemma history_good pw o fuel cs : valid_mopts o -> Forall valid_call cs -> forall s, good o s ->
  forall t, In t (fst (history pw o fuel cs s)) -> good o t.
Proof.
  intros V. induction cs as [|c r IH]; intros F s G t H.
  - destruct H as [<-|[]]; auto.
  - inversion F; subst. cbn [history] in H. pose proof (update_range pw o c fuel s V H2 G) as [U _]. cbv zeta in U.
    destruct (update pw o fuel c s) as [s1 p1 r1|s1 p1|s1]; cbn [state_of] in U.
    + specialize (IH H3 s1 U t). destruct (history pw o fuel r s1) as [l ok]. simpl in *. destruct H as [<-|H]; auto.
    + simpl in H. destruct H as [<-|[<-|[]]]; auto.
    + simpl in H. destruct H as [<-|[<-|[]]]; auto.
Qed.

Lemma history_head pw o fuel cs s : exists l, fst (history pw o fuel cs s) = s :: l.
Proof.
  destruct cs as [|c r]; cbn [history]; [eexists; reflexivity|].
  destruct (update pw o fuel c s) as [s1 p1 r1|s1 p1|s1]; try (eexists; reflexivity).
  destruct (history pw o fuel r s1); eexists; reflexivity.
Qed.

(** Every barrier parameter in a history of updates is a finite non-negative
    number, not below any common lower bound of the limits and of mu_init; so it
    is positive if the limits are. *)
Theorem C19_mu_bounded_below :
  forall pw o resto fuel cs L, valid_mopts o -> Forall valid_call cs ->
  L <= key (mu_init o) -> (forall c, In c cs -> L <= limit o c) ->
  forall s, In s (fst (history pw o fuel cs (mu_initialize o resto))) ->
  nfin (mu s) = true /\ 0 <= key (mu s) /\ L <= key (mu s).
Proof.
  intros pw o resto fuel cs L V F Li Lc s H.
  pose proof (history_good pw o fuel cs V F _ (init_good o V resto) s H) as (G1 & G2 & _).
  split; [auto|]. split; [auto|]. revert H.
  assert (G0 : good o (mu_initialize o resto)) by (apply init_good; auto).
  assert (L0 : L <= key (mu (mu_initialize o resto))) by exact Li.
  revert G0 L0. generalize (mu_initialize o resto) as s0. clear Li G1 G2.
  induction cs as [|c r IH]; intros s0 G0 L0 H.
  - destruct H as [<-|[]]; auto.
  - inversion F; subst. cbn [history] in H. pose proof (update_range pw o c fuel s0 V H2 G0) as [U1 U2]. cbv zeta in U1, U2.
    assert (L1 : L <= key (mu (state_of (update pw o fuel c s0)))).
    { destruct U2 as [->|U2]; auto. eapply Rle_trans; [apply Lc; left; auto|lra]. }
    destruct (update pw o fuel c s0) as [s1 p1 r1|s1 p1|s1]; cbn [state_of] in *.
    + specialize (IH H3 (fun c' h => Lc c' (or_intror h)) s1 U1 L1).
      destruct (history pw o fuel r s1) as [l ok]. simpl in *. destruct H as [<-|H]; auto.
    + simpl in H. destruct H as [<-|[<-|[]]]; auto.
    + simpl in H. destruct H as [<-|[<-|[]]]; auto.
Qed.

(** It never increases, if mu_init is not below the first limit and the limits
    do not increase. *)
Theorem C19_mu_never_increases :
  forall pw o resto fuel cs, valid_mopts o -> Forall valid_call cs ->
  chain (fun a b => b <= a) (key (mu_init o) :: map (limit o) cs) ->
  chain (fun s t => key (mu t) <= key (mu s)) (fst (history pw o fuel cs (mu_initialize o resto))).
Proof.
  intros pw o resto fuel cs V F.
  assert (G0 : good o (mu_initialize o resto)) by (apply init_good; auto).
  change (mu_init o) with (mu (mu_initialize o resto)).
  revert G0. generalize (mu_initialize o resto) as s0.
  induction cs as [|c r IH]; intros s0 G0 H; [simpl; auto|].
  inversion F; subst. cbn [map] in H. destruct H as [H0 H1].
  pose proof (update_range pw o c fuel s0 V H2 G0) as [U1 U2]. cbv zeta in U1, U2.
  assert (L1 : limit o c <= key (mu (state_of (update pw o fuel c s0))) <= key (mu s0)).
  { destruct U2 as [->|U2]; [lra|]. rewrite Rmax_right in U2 by lra. lra. }
  cbn [history]. destruct (update pw o fuel c s0) as [s1 p1 r1|s1 p1|s1]; cbn [state_of] in *.
  - assert (H' : chain (fun a b => b <= a) (key (mu s1) :: map (limit o) r)).
    { destruct r; simpl in *; auto. destruct H1. split; auto. lra. }
    specialize (IH H3 s1 U1 H'). destruct (history_head pw o fuel r s1) as [l' E].
    destruct (history pw o fuel r s1) as [l ok]. simpl in E. subst l. simpl. simpl in IH. split; [lra|exact IH].
  - simpl. split; [lra|auto].
  - simpl. split; [lra|auto].
Qed.

(** The fraction-to-the-boundary parameter *)
Theorem C19_tau_range :
  forall pw o resto fuel cs, valid_mopts o -> Forall valid_call cs ->
  forall s, In s (fst (history pw o fuel cs (mu_initialize o resto))) ->
  nnan (tau s) = false /\ key (tau_min o) <= key (tau s) <= 1 /\
  (bpow radix2 (-53) <= key (mu s) -> key (tau s) < 1).
Proof.
  intros pw o resto fuel cs V F s H.
  destruct (history_good pw o fuel cs V F _ (init_good o V resto) s H) as (G1 & G2 & G3).
  rewrite G3. apply new_tau_spec; auto.
Qed.

(** An update makes finitely many passes, whatever the barrier errors are. *)
Theorem C19_update_terminates :
  forall pw o tol ctol s, valid_mopts o -> good o s ->
  exists N, forall err tiny fuel, valid_call (Call tol ctol err tiny) -> (N <= fuel)%nat ->
  finished (update pw o fuel (Call tol ctol err tiny) s).
Proof.
  intros pw o tol ctol s V G.
  set (c0 := Call tol ctol (fun _ => nzero) false).
  set (B := Zfloor (Rmax (limit o c0) (key (mu s)) * bpow radix2 1074)).
  exists (Z.to_nat (Z.max 0 B + 3)). intros err tiny fuel C H.
  set (c := Call tol ctol err tiny) in *.
  assert (E : limit o c = limit o c0) by reflexivity.
  apply (loop_ends pw o V c rank C) with (B := Z.max 0 B); auto; try lia.
  - intros m F L. apply rank_pos. pose proof (limit_pos o V c C). lra.
  - intros m F L D. apply rank_dec; auto.
  - intros m F L. rewrite E in L. pose proof (rank_le m _ (proj2 L)). unfold B. lia.
Qed.

(** [n+2] passes suffice if mu * (lin_factor * (1+2^-53))^n is below the limit *)
Theorem C19_update_passes :
  forall pw o c n fuel s, valid_mopts o -> good o s -> valid_call c ->
  bpow radix2 (-1022) <= limit o c ->
  (key (lin_factor o) * (1 + bpow radix2 (-53))) ^ n * key (mu s) <= limit o c ->
  (n + 1 < fuel)%nat ->
  finished (update pw o fuel c s) /\ (passes_of (update pw o fuel c s) <= n + 2)%nat.
Proof.
  intros pw o c n fuel s V G C N Q H.
  apply (loop_ends_log pw o V c C N n s G Q fuel). exact H.
Qed.

(** When an update returns: the barrier test fails for the new mu (with the
    error last read), or mu could not be changed any more, or one step was made
    with mu_allow_fast_monotone_decrease=no. The tiny step exception is thrown
    only if mu cannot be changed. *)
Theorem C19_update_outcome :
  forall pw o c fuel s, first_resto s = false ->
  match update pw o fuel c s with
  | Return s' passes resets => (resets <= 1)%nat /\
      ((initialized s = true /\ fast o = false /\ passes = 1%nat) \/
       (exists m, neqb m (mu s') = true /\ new_mu pw o c m = mu s') \/
       nle (c_err c passes) (nmul (barrier_factor o) (mu s')) = false)
  | TinyStep s' passes => passes = 0%nat /\ c_tiny c = true /\ s' = s /\ neqb (mu s) (new_mu pw o c (mu s)) = true
  | Loop _ => True
  end.
Proof.
  intros pw o c fuel s FR. unfold update. apply loop_exit; auto.
  split; [auto|]. split; [discriminate|]. split; auto.
Qed.

(** ** Concrete cases *)
Definition ex_pow (m p : num) : num := nmul m (nsqrt m).   (* m^1.5 *)
Definition ex_o (init : num) : mopts :=
  MOpts init (nofZ 10) (nrat 1 5) (nrat 3 2) true (nrat 99 100) nzero.
Definition ex_c (tol : num) (err : num) : call := Call tol (nrat 1 10000) (fun _ => err) false.
Definition tol8 := nrat 1 (10 ^ 8).

Definition fin_pos (x : num) : bool := nfin x && nlt nzero x.
Lemma fin_pos_ok x : fin_pos x = true -> nfin x = true /\ 0 < key x.
Proof. unfold fin_pos. intros H. apply andb_true_iff in H. destruct H as [H1 H2]. apply nlt_iff in H2. rewrite key_nzero in H2. tauto. Qed.
Lemma ex_valid init : fin_pos init = true -> valid_mopts (ex_o init).
Proof.
  intros H. split; cbn [ex_o mu_init barrier_factor lin_factor tau_min mu_target].
  - apply fin_pos_ok; auto.
  - split; [apply nofZ_spec; lia|]. split; [destruct (nofZ_spec 10) as [_ ->]; [lia|lra]|]. vm_compute; reflexivity.
  - split; [vm_compute; reflexivity|]. rewrite <- key_nzero, <- key_none.
    split; apply nlt_iff; vm_compute; reflexivity.
  - split; [vm_compute; reflexivity|]. rewrite <- key_nzero, <- key_none.
    split; apply nlt_iff; vm_compute; reflexivity.
  - split; [reflexivity|]. rewrite key_nzero. lra.
Qed.
Lemma ex_valid_call tol err : fin_pos tol = true -> valid_call (ex_c tol err).
Proof.
  intros H. destruct (fin_pos_ok _ H) as [A B]. split; [exact A|]. split; [exact B|].
  split; [vm_compute; reflexivity|]. apply Rlt_le. rewrite <- key_nzero. apply nlt_iff. vm_compute; reflexivity.
Qed.

(** from mu_init=0.1 with a vanishing barrier error: one update, seven passes, to the limit *)
Definition ex_run1 := update ex_pow (ex_o (nrat 1 10)) 50 (ex_c tol8 nzero) (mu_initialize (ex_o (nrat 1 10)) false).
Example C19_case : valid_mopts (ex_o (nrat 1 10)) /\ valid_call (ex_c tol8 nzero) /\
  good (ex_o (nrat 1 10)) (mu_initialize (ex_o (nrat 1 10)) false) /\
  passes_of ex_run1 = 7%nat.
Proof.
  split; [apply ex_valid; vm_compute; reflexivity|]. split; [apply ex_valid_call; vm_compute; reflexivity|].
  split; [apply init_good, ex_valid; vm_compute; reflexivity|]. vm_compute; reflexivity.
Qed.

(** An update may change mu without resetting the line search (and so without
    clearing the filter): when the loop ends because mu cannot be changed. *)
Definition changed_without_reset (m : num) (r : outcome) : bool :=
  match r with Return s _ O => nlt (mu s) m | _ => false end.
Lemma cwr m r : changed_without_reset m r = true -> exists s' p, r = Return s' p 0 /\ key (mu s') < key m.
Proof.
  destruct r as [s p [|k]|s p|s]; cbn [changed_without_reset]; intros H; try discriminate H.
  apply nlt_iff in H. exists s, p. split; auto. apply H.
Qed.
Theorem C19_reset_on_change_refuted :
  exists pw o c s fuel s' p, valid_mopts o /\ valid_call c /\ good o s /\ first_resto s = false /\
    update pw o fuel c s = Return s' p 0 /\ key (mu s') < key (mu s).
Proof.
  destruct (cwr (nrat 1 10) ex_run1) as (s' & p & E & L); [vm_compute; reflexivity|].
  exists ex_pow, (ex_o (nrat 1 10)), (ex_c tol8 nzero), (mu_initialize (ex_o (nrat 1 10)) false), 50%nat, s', p.
  destruct C19_case as (A & B & C & _). split; [exact A|]. split; [exact B|]. split; [exact C|]. split; [reflexivity|].
  split; [exact E|exact L].
Qed.

(** With mu_init below the limit the barrier parameter increases. *)
Definition low_init := nrat 1 (10 ^ 10).
Definition grows (m : num) (r : outcome) : bool := match r with Return s _ _ => nlt m (mu s) | _ => false end.
Lemma grows_ok m r : grows m r = true -> exists s' p k, r = Return s' p k /\ key m < key (mu s').
Proof.
  destruct r as [s p k|s p|s]; cbn [grows]; intros H; try discriminate H.
  apply nlt_iff in H. exists s, p, k. split; auto. apply H.
Qed.
Theorem C19_small_mu_init_refuted :
  exists pw o c fuel s' p k, valid_mopts o /\ valid_call c /\
    update pw o fuel c (mu_initialize o false) = Return s' p k /\ key (mu_init o) < key (mu s').
Proof.
  destruct (grows_ok low_init (update ex_pow (ex_o low_init) 50 (ex_c tol8 nzero) (mu_initialize (ex_o low_init) false)))
    as (s' & p & k & E & L); [vm_compute; reflexivity|].
  exists ex_pow, (ex_o low_init), (ex_c tol8 nzero), 50%nat, s', p, k.
  split; [apply ex_valid; vm_compute; reflexivity|]. split; [apply ex_valid_call; vm_compute; reflexivity|].
  split; [exact E|exact L].
Qed.

(** tau = 1 is reached for tiny tolerances, and mu = 0 when the limit underflows. *)
Definition tol20 := nrat 1 (10 ^ 20).
Definition tau_one (r : outcome) : bool := match r with Return s _ _ => neqb (tau s) none | _ => false end.
Lemma tau_one_ok r : tau_one r = true -> exists s' p k, r = Return s' p k /\ key (tau s') = 1.
Proof.
  destruct r as [s p k|s p|s]; cbn [tau_one]; intros H; try discriminate H.
  apply neqb_iff in H. rewrite key_none in H. exists s, p, k. split; auto. apply H.
Qed.
Theorem C19_tau_below_one_refuted :
  exists pw o c fuel s' p k, valid_mopts o /\ valid_call c /\
    update pw o fuel c (mu_initialize o false) = Return s' p k /\ key (tau s') = 1.
Proof.
  destruct (tau_one_ok (update ex_pow (ex_o (nrat 1 10)) 50 (ex_c tol20 nzero) (mu_initialize (ex_o (nrat 1 10)) false)))
    as (s' & p & k & E & L); [vm_compute; reflexivity|].
  exists ex_pow, (ex_o (nrat 1 10)), (ex_c tol20 nzero), 50%nat, s', p, k.
  split; [apply ex_valid; vm_compute; reflexivity|]. split; [apply ex_valid_call; vm_compute; reflexivity|].
  split; [exact E|exact L].
Qed.
Definition tiny_num := nmul (nrat 1 (2 ^ 537)) (nrat 1 (2 ^ 537)).   (* 2^-1074 *)
Definition mu_zero (r : outcome) : bool := match r with Return s _ _ => neqb (mu s) nzero | _ => false end.
Lemma mu_zero_ok r : mu_zero r = true -> exists s' p k, r = Return s' p k /\ key (mu s') = 0.
Proof.
  destruct r as [s p k|s p|s]; cbn [mu_zero]; intros H; try discriminate H.
  apply neqb_iff in H. rewrite key_nzero in H. exists s, p, k. split; auto. apply H.
Qed.
Theorem C19_mu_positive_refuted :
  exists pw o c fuel s' p k, valid_mopts o /\ valid_call c /\
    update pw o fuel c (mu_initialize o false) = Return s' p k /\ key (mu s') = 0.
Proof.
  destruct (mu_zero_ok (update ex_pow (ex_o (nrat 1 10)) 900 (ex_c tiny_num nzero) (mu_initialize (ex_o (nrat 1 10)) false)))
    as (s' & p & k & E & L); [vm_compute; reflexivity|].
  exists ex_pow, (ex_o (nrat 1 10)), (ex_c tiny_num nzero), 900%nat, s', p, k.
  split; [apply ex_valid; vm_compute; reflexivity|]. split; [apply ex_valid_call; vm_compute; reflexivity|].
  split; [exact E|exact L].
Qed.

Print Assumptions C19_mu_bounded_below.
Print Assumptions C19_mu_never_increases.
Print Assumptions C19_tau_range.
Print Assumptions C19_update_terminates.
Print Assumptions C19_update_passes.
Print Assumptions C19_update_outcome.
Print Assumptions C19_reset_on_change_refuted.
