(** Properties of the C interface (C36, C53). *)
From Coq Require Import List Bool Arith ZArith Lia.
From Verif Require Import CIModel CISpec CIProofs.
Import ListNotations.
Set Implicit Arguments.

Section P.
Variable V : Type.
Variable one junk : V.
Notation cmap := (nat -> option (list V)).

(** ** creation *)
Lemma is_some_iff {A} (o : option A) : is_some o = true <-> o <> None.
Proof. destruct o; simpl; split; congruence. Qed.
Lemma bad_input_iff a : bad_input a = false <-> valid_args a.
Proof.
  unfold bad_input, valid_args. rewrite !orb_false_iff, !andb_false_iff, !orb_false_iff, !negb_false_iff, !is_some_iff.
  rewrite !Z.ltb_ge, !Z.eqb_eq, !Z.eqb_neq. split.
  - intros. repeat match goal with H : _ /\ _ |- _ => destruct H end. repeat (split; [assumption || lia|]). split.
    + intros M. repeat match goal with H : _ \/ _ |- _ => destruct H end; try lia; tauto.
    + repeat (split; [assumption || lia|]). assumption.
  - intros (A1 & A2 & A3 & A4 & A5 & A6 & A7 & A8 & A9).
    destruct (Z_lt_dec 0 (a_m a)) as [M|M].
    + destruct (A5 M) as (B1 & B2 & B3 & B4 & B5). repeat split; auto; try lia; right; auto.
    + repeat split; auto; try lia; left; lia.
Qed.

Lemma array_opt (c : cmap) k p v : array c k p = Some v -> opt_array c k p = Ok (Some v).
Proof.
  unfold opt_array. destruct p; [|discriminate]. intros H. rewrite H. destruct (Nat.eqb_spec k 0) as [->|]; auto.
  revert H; simpl. destruct (c n); [|discriminate]. intros [=<-]; reflexivity.
Qed.

Lemma create_R c a xL xU gL gU : valid_args a -> arrays_hold c a xL xU gL gU ->
  exists s, start one junk c a = Ok (Some s) /\ R s (VSt c (Some (vproblem one a xL xU gL gU)) None).
Proof.
  intros VA (H1 & H2 & H3). unfold start, create. pose proof VA as VB. apply bad_input_iff in VA. rewrite VA.
  destruct VB as (A1 & A2 & A3 & A4 & A5 & A6 & A7 & A8 & A9).
  set (m0 := Mem c (fun _ => None) 0).
  assert (F0 : fresh m0) by (intros b _; reflexivity).
  assert (C0 : forall b, cnt m0 b = 0) by reflexivity.
  pose proof (@new_copy_spec _ junk m0 (Z.to_nat (a_n a)) (a_xL a) F0) as N1. cbn [cl m0] in N1. rewrite (@array_opt _ _ _ _ H1) in N1.
  destruct N1 as (q1 & m1 & -> & B1 & B2 & B3 & B4 & B5). cbn [bind fst snd].
  pose proof (@new_copy_spec _ junk m1 (Z.to_nat (a_n a)) (a_xU a) B2) as N2. rewrite B1 in N2. cbn [cl m0] in N2. rewrite (@array_opt _ _ _ _ H2) in N2.
  destruct N2 as (q2 & m2 & -> & D1 & D2 & D3 & D4 & D5). cbn [bind fst snd].
  assert (N : 0 < Z.to_nat (a_n a)) by lia.
  assert (NJ : (0 <= a_nj a)%Z).
  { destruct (Z.eq_dec (a_m a) 0) as [E|E]; [specialize (A6 E); lia|]. destruct (A5 ltac:(lia)) as (_ & _ & ? & _). lia. }
  destruct (Z.ltb_spec 0 (a_m a)) as [M|M].
  - destruct H3 as (H3 & H4).
    pose proof (@new_copy_spec _ junk m2 (Z.to_nat (a_m a)) (a_gL a) D2) as N3. rewrite D1, B1 in N3. cbn [cl m0] in N3. rewrite (@array_opt _ _ _ _ H3) in N3.
    destruct N3 as (q3 & m3 & -> & E1 & E2 & E3 & E4 & E5). cbn [bind fst snd].
    pose proof (@new_copy_spec _ junk m3 (Z.to_nat (a_m a)) (a_gU a) E2) as N4. rewrite E1, D1, B1 in N4. cbn [cl m0] in N4. rewrite (@array_opt _ _ _ _ H4) in N4.
    destruct N4 as (q4 & m4 & -> & G1 & G2 & G3 & G4 & G5). cbn [bind fst snd].
    eexists; split; [reflexivity|].
    constructor; cbn [sm sp sr sk vc vp vr].
    + rewrite G1, E1, D1, B1. reflexivity.
    + exact G2.
    + intros b. rewrite G5, E5, D5, B5, C0. unfold otot, ptot; simpl. lia.
    + assert (M' : exists k, Z.to_nat (a_m a) = S k) by (exists (pred (Z.to_nat (a_m a))); lia). destruct M' as (k & M').
      constructor; simpl; try reflexivity; auto.
      * eapply oholds_ple; [|exact B3]. eapply ple_trans; [apply D4|]. eapply ple_trans; [apply E4|apply G4].
      * eapply oholds_ple; [|exact D3]. eapply ple_trans; [apply E4|apply G4].
      * unfold gholds. rewrite M' in *. eapply oholds_ple; [apply G4|exact E3].
      * unfold gholds. rewrite M' in *. exact G3.
      * rewrite !is_some_iff. auto.
    + exact Logic.I.
    + exact Logic.I.
  - destruct H3 as (-> & ->). cbn [bind fst snd]. eexists; split; [reflexivity|].
    assert (M' : Z.to_nat (a_m a) = 0) by lia.
    constructor; cbn [sm sp sr sk vc vp vr].
    + rewrite D1, B1. reflexivity.
    + exact D2.
    + intros b. rewrite D5, B5, C0. unfold otot, ptot; simpl. lia.
    + constructor; simpl; try reflexivity; auto.
      * eapply oholds_ple; [|exact B3]. apply D4.
      * rewrite M'; split; reflexivity.
      * rewrite M'; split; reflexivity.
      * rewrite !is_some_iff. auto.
    + exact Logic.I.
    + exact Logic.I.
Qed.

(** CreateIpoptProblem returns a problem exactly for valid arguments: invalid ones give
    NULL (and nothing is allocated or read), valid ones whose arrays hold the n and m
    numbers announced give a problem. *)
Theorem C36_create_iff_valid : forall c a xL xU gL gU,
  (valid_args a -> arrays_hold c a xL xU gL gU -> exists s, start one junk c a = Ok (Some s)) /\
  (~ valid_args a -> forall m, create one junk a m = Ok (None, m)).
Proof.
  intros c a xL xU gL gU. split.
  - intros VA AH. destruct (create_R VA AH) as (s & E & _). eauto.
  - intros NV m. unfold create. destruct (bad_input a) eqn:B; [reflexivity|]. apply bad_input_iff in B. contradiction.
Qed.

(** ** the two machines *)
Lemma run_R es : forall s v, R s v ->
  match run junk s es, vruns junk v es with
  | Ok (o, s'), Ok (o', v') => o = o' /\ R s' v'
  | Undef, Undef => True
  | _, _ => False end.
Proof.
  induction es as [|e es IH]; intros s v H; cbn [run vruns]; [auto|].
  pose proof (step_sim junk e H) as S. unfold sim in S.
  destruct (step junk s e) as [[o1 s1]|], (vstep junk v e) as [[o1' v1]|]; try contradiction; [|exact Logic.I].
  destruct S as (-> & R1). cbn [bind fst snd]. specialize (IH s1 v1 R1).
  destruct (run junk s1 es) as [[o2 s2]|], (vruns junk v1 es) as [[o2' v2]|]; try contradiction; [|exact Logic.I].
  destruct IH as (-> & R2). cbn [bind fst snd]. auto.
Qed.

(** A problem behaves like a value: whatever the caller does with its arrays and
    whatever the solver asks for, what is seen (answers to the solver, arguments of the
    callbacks, statuses, what arrives in the caller's arrays) is what the pointer-free
    machine of CISpec.v shows for the data given at the time of the calls; and memory
    is misused exactly if that machine says that the caller passed an array that is too
    short, deleted, etc. *)
Theorem C36_problem_is_a_value : forall c a xL xU gL gU s es,
  valid_args a -> arrays_hold c a xL xU gL gU -> start one junk c a = Ok (Some s) ->
  match run junk s es, vruns junk (VSt c (Some (vproblem one a xL xU gL gU)) None) es with
  | Ok (o, s'), Ok (o', v') => o = o' /\ forall k, cl (sm s') k = vc v' k
  | Undef, Undef => True
  | _, _ => False end.
Proof.
  intros c a xL xU gL gU s es VA AH ST. destruct (create_R VA AH) as (s0 & E & H). rewrite E in ST. injection ST as <-.
  pose proof (run_R es H) as Q. destruct (run junk s0 es) as [[o s']|], (vruns _ _ es) as [[o' v']|]; auto.
  destruct Q as (Q1 & Q2). split; auto. intros k. now rewrite (R_cl Q2).
Qed.

(** ** nothing leaks *)
Lemma run_inv c a s es o s' : start one junk c a = Ok (Some s) -> run junk s es = Ok (o, s') ->
  exists xL xU gL gU v', valid_args a /\ arrays_hold c a xL xU gL gU /\ vruns junk (VSt c (Some (vproblem one a xL xU gL gU)) None) es = Ok (o, v') /\ R s' v'.
Proof.
  intros ST RN.
  assert (VA : valid_args a).
  { apply bad_input_iff. revert ST. unfold start, create. destruct (bad_input a); [|reflexivity]. simpl. discriminate. }
  assert (OA : forall k p (m : mem V) r, new_copy_opt junk (S k) (cptr p) m = Ok r -> p <> None -> exists l, array (cl m) (S k) p = Some l).
  { intros k p m r. destruct p as [b|]; [|congruence]. simpl. unfold new_copy, alloc, copy, read, look. simpl. destruct (cl m b) as [l|]; [|discriminate].
    destruct (length l); simpl; [discriminate|]. destruct (k <=? n); [eauto|discriminate]. }
  assert (OC : forall k p (m : mem V) r, new_copy_opt junk k (cptr p) m = Ok r -> cl (snd r) = cl m).
  { intros k p m r. destruct p as [b|]; simpl; [|intros [=<-]; reflexivity]. unfold new_copy, alloc, copy.
    destruct (read _ _ _) as [l|]; cbn [bind]; [|discriminate]. unfold write. destruct k; [intros [=<-]; reflexivity|].
    destruct (look _ _); [|discriminate]. destruct (_ && _); [|discriminate]. cbn [bind]. intros [=<-]. reflexivity. }
  assert (exists xL xU gL gU, arrays_hold c a xL xU gL gU) as (xL & xU & gL & gU & AH).
  { revert ST. unfold start, create. pose proof VA as VB. apply bad_input_iff in VB. rewrite VB.
    destruct VA as (A1 & A2 & A3 & A4 & A5 & A6 & A7 & A8 & A9).
    assert (exists k, Z.to_nat (a_n a) = S k) as (k & K) by (exists (pred (Z.to_nat (a_n a))); lia).
    unfold arrays_hold. rewrite K.
    destruct (new_copy_opt junk (S k) (cptr (a_xL a)) _) as [r1|] eqn:E1; [|discriminate]. cbn [bind].
    destruct (new_copy_opt junk (S k) (cptr (a_xU a)) _) as [r2|] eqn:E2; [|discriminate]. cbn [bind].
    destruct (OA _ _ _ _ E1 A3) as (xL & P1). destruct (OA _ _ _ _ E2 A4) as (xU & P2).
    pose proof (OC _ _ _ _ E1) as C1. pose proof (OC _ _ _ _ E2) as C2. rewrite C1 in *. cbn [cl] in *.
    destruct (Z.ltb_spec 0 (a_m a)) as [M|M].
    - assert (exists k, Z.to_nat (a_m a) = S k) as (j & J) by (exists (pred (Z.to_nat (a_m a))); lia). rewrite J.
      destruct (new_copy_opt junk (S j) (cptr (a_gL a)) _) as [r3|] eqn:E3; [|discriminate]. cbn [bind].
      destruct (new_copy_opt junk (S j) (cptr (a_gU a)) _) as [r4|] eqn:E4; [|discriminate]. cbn [bind]. intros _.
      destruct (A5 M) as (B1 & B2 & _). destruct (OA _ _ _ _ E3 B1) as (gL & P3). destruct (OA _ _ _ _ E4 B2) as (gU & P4).
      pose proof (OC _ _ _ _ E3) as C3. rewrite C3, C2 in P4. rewrite C2 in P3. exists xL, xU, gL, gU. auto.
    - intros _. exists xL, xU, [], []. auto. }
  destruct (create_R VA AH) as (s0 & E & H). rewrite E in ST. injection ST as <-.
  pose proof (run_R es H) as Q. rewrite RN in Q. destruct (vruns _ _ es) as [[o' v']|] eqn:EV; [|contradiction].
  destruct Q as (<- & Q2). exists xL, xU, gL, gU, v'. auto.
Qed.

(** whatever was done, after FreeIpoptProblem nothing that the interface allocated is
    left; and before, the interface never holds more than 13 arrays *)
Theorem C36_no_leak : forall c a s es o s',
  start one junk c a = Ok (Some s) -> run junk s es = Ok (o, s') ->
  (sp s' = None -> forall k, lb (sm s') k = None) /\
  (exists L, length L <= 13 /\ forall k, lb (sm s') k <> None -> In k L).
Proof.
  intros c a s es o s' ST RN. destruct (@run_inv _ _ _ _ _ _ ST RN) as (xL & xU & gL & gU & v' & _ & _ & _ & Q). destruct Q. split.
  - intros E k. specialize (R_sum k). rewrite E in *.
    assert (sr s' = None). { destruct (sr s'), (vr v'); try contradiction; auto. destruct R_t as (_ & []). }
    assert (sk s' = None). { destruct (sk s'); auto. destruct R_k as (R_k & _). congruence. }
    rewrite H, H0 in R_sum. simpl in R_sum. unfold cnt in R_sum. destruct (lb (sm s') k); [discriminate|reflexivity].
  - set (ad := fun q : option addr => match q with Some (Lb b) => [b] | _ => [] end).
    assert (LA : forall q, length (ad q) <= 1) by (intros [[|]|]; simpl; lia).
    assert (OC : forall q k, occ q k <> 0 -> In k (ad q)).
    { intros [[b|b]|] k; simpl; try lia. destruct (Nat.eqb_spec k b); [left; congruence|lia]. }
    exists ((match sp s' with Some p => ad (p_xL p) ++ ad (p_xU p) ++ ad (p_gL p) ++ ad (p_gU p) ++ ad (p_xs p) ++ ad (p_gs p) | None => [] end) ++
            (match sr s' with Some t => ad (t_sx t) ++ ad (t_slam t) ++ ad (t_szL t) ++ ad (t_szU t) ++ ad (t_xs t) ++ ad (t_gs t) ++ ad (t_ncx t)
             | None => match sk s' with Some t => ad (t_xs t) ++ ad (t_gs t) ++ ad (t_ncx t) | None => [] end end)).
    split.
    + rewrite app_length. assert (length (match sp s' with Some p => ad (p_xL p) ++ ad (p_xU p) ++ ad (p_gL p) ++ ad (p_gU p) ++ ad (p_xs p) ++ ad (p_gs p) | None => [] end) <= 6).
      { destruct (sp s') as [p|]; [|simpl; lia]. rewrite !app_length. pose proof (LA (p_xL p)). pose proof (LA (p_xU p)). pose proof (LA (p_gL p)).
        pose proof (LA (p_gU p)). pose proof (LA (p_xs p)). pose proof (LA (p_gs p)). lia. }
      destruct (sr s') as [t|].
      * rewrite !app_length. pose proof (LA (t_sx t)). pose proof (LA (t_slam t)). pose proof (LA (t_szL t)). pose proof (LA (t_szU t)).
        pose proof (LA (t_xs t)). pose proof (LA (t_gs t)). pose proof (LA (t_ncx t)). lia.
      * destruct (sk s') as [t|]; [|simpl; lia]. rewrite !app_length. pose proof (LA (t_xs t)). pose proof (LA (t_gs t)). pose proof (LA (t_ncx t)). lia.
    + intros k Hk. specialize (R_sum k). assert (cnt (sm s') k = 1) by (unfold cnt; destruct (lb (sm s') k); [reflexivity|congruence]).
      rewrite !in_app_iff. destruct (sr s') as [t|] eqn:Et.
      * assert (sk s' = None) by (destruct (vr v'); [tauto|contradiction]). rewrite H0 in R_sum. simpl in R_sum.
        destruct (sp s') as [p|]; simpl in R_sum; rewrite ?in_app_iff; unfold ptot, ttot in R_sum.
        -- destruct (Nat.eq_dec (occ (p_xL p) k) 0); [|left; left; auto]. destruct (Nat.eq_dec (occ (p_xU p) k) 0); [|auto 8].
           destruct (Nat.eq_dec (occ (p_gL p) k) 0); [|auto 8]. destruct (Nat.eq_dec (occ (p_gU p) k) 0); [|auto 8].
           destruct (Nat.eq_dec (occ (p_xs p) k) 0); [|auto 8]. destruct (Nat.eq_dec (occ (p_gs p) k) 0); [|auto 9].
           destruct (Nat.eq_dec (occ (t_sx t) k) 0); [|auto 9]. destruct (Nat.eq_dec (occ (t_slam t) k) 0); [|auto 9].
           destruct (Nat.eq_dec (occ (t_szL t) k) 0); [|auto 9]. destruct (Nat.eq_dec (occ (t_szU t) k) 0); [|auto 9].
           destruct (Nat.eq_dec (occ (t_xs t) k) 0); [|auto 10]. destruct (Nat.eq_dec (occ (t_gs t) k) 0); [|auto 10].
           destruct (Nat.eq_dec (occ (t_ncx t) k) 0); [lia|auto 11].
        -- destruct (Nat.eq_dec (occ (t_sx t) k) 0); [|auto 9]. destruct (Nat.eq_dec (occ (t_slam t) k) 0); [|auto 9].
           destruct (Nat.eq_dec (occ (t_szL t) k) 0); [|auto 9]. destruct (Nat.eq_dec (occ (t_szU t) k) 0); [|auto 9].
           destruct (Nat.eq_dec (occ (t_xs t) k) 0); [|auto 10]. destruct (Nat.eq_dec (occ (t_gs t) k) 0); [|auto 10].
           destruct (Nat.eq_dec (occ (t_ncx t) k) 0); [lia|auto 11].
      * destruct (sk s') as [t|]; simpl in R_sum.
        -- destruct (sp s') as [p|]; simpl in R_sum; rewrite ?in_app_iff; unfold ptot, ktot in R_sum.
           ++ destruct (Nat.eq_dec (occ (p_xL p) k) 0); [|left; left; auto]. destruct (Nat.eq_dec (occ (p_xU p) k) 0); [|auto 8].
              destruct (Nat.eq_dec (occ (p_gL p) k) 0); [|auto 8]. destruct (Nat.eq_dec (occ (p_gU p) k) 0); [|auto 8].
              destruct (Nat.eq_dec (occ (p_xs p) k) 0); [|auto 8]. destruct (Nat.eq_dec (occ (p_gs p) k) 0); [|auto 9].
              destruct (Nat.eq_dec (occ (t_xs t) k) 0); [|auto 10]. destruct (Nat.eq_dec (occ (t_gs t) k) 0); [|auto 10].
              destruct (Nat.eq_dec (occ (t_ncx t) k) 0); [lia|auto 11].
           ++ destruct (Nat.eq_dec (occ (t_xs t) k) 0); [|auto 10]. destruct (Nat.eq_dec (occ (t_gs t) k) 0); [|auto 10].
              destruct (Nat.eq_dec (occ (t_ncx t) k) 0); [lia|auto 11].
        -- destruct (sp s') as [p|]; simpl in R_sum; rewrite ?in_app_iff; unfold ptot in R_sum; [|lia].
           destruct (Nat.eq_dec (occ (p_xL p) k) 0); [|left; left; auto]. destruct (Nat.eq_dec (occ (p_xU p) k) 0); [|auto 8].
           destruct (Nat.eq_dec (occ (p_gL p) k) 0); [|auto 8]. destruct (Nat.eq_dec (occ (p_gU p) k) 0); [|auto 8].
           destruct (Nat.eq_dec (occ (p_xs p) k) 0); [|auto 8]. destruct (Nat.eq_dec (occ (p_gs p) k) 0); [lia|auto 9].
Qed.

(** ** what was given at creation is what is used *)
(** an observation that agrees with the arguments of CreateIpoptProblem *)
Definition agrees (a : cargs) (xL xU gL gU : list V) (o : obs V) : Prop :=
  match o with
  | ONlpInfo _ n m nj nh fortran => Z.of_nat n = a_n a /\ Z.of_nat m = a_m a /\ nj = a_nj a /\ nh = a_nh a /\ (fortran = true <-> a_style a = 1%Z)
  | OBounds xl xu gl gu => xl = xL /\ xu = xU /\ gl = gL /\ gu = gU
  | OCallF cb _ _ _ => cb = a_f a /\ cb <> None
  | OCallGradF cb _ _ _ => cb = a_gf a /\ cb <> None
  | OCallG cb _ _ _ => cb = a_g a /\ cb <> None
  | OCallJac cb _ _ _ => cb = a_jg a /\ cb <> None
  | OCallH cb _ _ _ _ _ _ => cb = a_h a /\ cb <> None
  | _ => True
  end.
Definition static (q0 q : vprob V) : Prop :=
  v_n q = v_n q0 /\ v_m q = v_m q0 /\ v_xL q = v_xL q0 /\ v_xU q = v_xU q0 /\ v_gL q = v_gL q0 /\ v_gU q = v_gU q0 /\
  v_nj q = v_nj q0 /\ v_nh q = v_nh q0 /\ v_style q = v_style q0 /\
  v_f q = v_f q0 /\ v_g q = v_g q0 /\ v_gf q = v_gf q0 /\ v_jg q = v_jg q0 /\ v_h q = v_h q0.
Definition vinv (q0 : vprob V) (v : vstate V) : Prop :=
  match vp v with Some q => static q0 q | None => True end /\
  match vr v with Some r => static q0 (r_prob r) /\ solvable (r_prob r) = true | None => True end.

Ltac bsplit H := match type of H with
  | bind ?x _ = Ok _ => let E := fresh "E" in let z := fresh "z" in destruct x as [z|] eqn:E; cbn [bind] in H; [|discriminate H]
  end.


Lemma on_run_inv q0 v f o v' (P : obs V -> Prop) : vinv q0 v -> on_run v f = Ok (o, v') ->
  (forall r o r', static q0 (r_prob r) -> solvable (r_prob r) = true -> f r = Ok (o, r') -> r_prob r' = r_prob r /\ Forall P o) -> vinv q0 v' /\ Forall P o.
Proof.
  intros (H1 & H2) H C. unfold on_run in H. destruct (vp v) as [q|] eqn:Ep; [|discriminate]. destruct (vr v) as [r|] eqn:Er; [|discriminate].
  destruct (f r) as [[o1 r1]|] eqn:Ef; cbn [bind fst snd] in H; [|discriminate]. injection H as <- <-.
  destruct H2 as (H2 & H3). destruct (C r o1 r1 H2 H3 Ef) as (E & F). split; auto. unfold vinv; cbn [vp vr]. rewrite E. auto.
Qed.

Lemma vstep_inv a xL xU gL gU v e o v' : valid_args a -> vinv (vproblem one a xL xU gL gU) v -> vstep junk v e = Ok (o, v') ->
  vinv (vproblem one a xL xU gL gU) v' /\ Forall (agrees a xL xU gL gU) o.
Proof.
  intros VA HV. pose proof HV as (H1 & H2). set (q0 := vproblem one a xL xU gL gU) in *.
  assert (ONE : forall x, Forall (agrees a xL xU gL gU) [x] <-> agrees a xL xU gL gU x) by (intros x; split; [intros H; inversion H; auto|auto]).
  assert (RPL : forall z, agrees a xL xU gL gU (answered V z)) by (intros z; exact Logic.I).
  assert (EVAL : forall nx x call ret r o r', (forall q, agrees a xL xU gL gU (call q)) -> veval nx x call ret r = Ok (o, r') -> r_prob r' = r_prob r /\ Forall (agrees a xL xU gL gU) o).
  { intros nx x call ret r o1 r' HC. unfold veval. destruct (point_after nx x r) as [q|]; cbn [bind]; [|discriminate]. intros [=<- <-]. simpl. auto. }
  assert (SOLV : forall r : vprob V, solvable r = true -> v_g r <> None /\ v_jg r <> None /\ v_h r <> None /\ (v_style r = 0 \/ v_style r = 1)%Z).
  { intros r. unfold solvable. rewrite !andb_true_iff, !is_some_iff, orb_true_iff, !Z.eqb_eq. tauto. }
  pose proof VA as (A1 & A2 & A3 & A4 & A5 & A6 & A7 & A8 & A9).
  destruct e; cbn [vstep].
  - destruct (vc v k); [discriminate|]. intros [=<- <-]. auto.
  - destruct (vc v k); [|discriminate]. intros [=<- <-]. auto.
  - destruct (vc v k); [|discriminate]. destruct (_ =? _); [|discriminate]. intros [=<- <-]. auto.
  - destruct (vp v) as [q|] eqn:Ep; [|discriminate]. destruct (opt_array _ _ xs); cbn [bind]; [|discriminate].
    destruct (opt_array _ _ gs); cbn [bind]; [|discriminate]. intros [=<- <-]. split; [|apply ONE; exact Logic.I]. split; cbn [vp vr]; auto.
  - destruct (vp v) as [q|] eqn:Ep; [|discriminate]. intros [=<- <-]. split; [|apply ONE; exact Logic.I]. split; cbn [vp vr]; auto.
  - destruct (vp v) as [q|] eqn:Ep; [|discriminate]. destruct (vr v) as [r|] eqn:Er; [discriminate|].
    destruct (negb _). { intros [=<- <-]. split; [auto|apply ONE; exact Logic.I]. }
    destruct (opt_array _ _ (s_x _)) as [[x|]|]; cbn [bind]; [| |discriminate].
    2:{ intros [=<- <-]. split; [auto|apply ONE; exact Logic.I]. }
    destruct (opt_array _ _ (s_mg _)); cbn [bind]; [|discriminate].
    destruct (opt_array _ _ (s_mL _)); cbn [bind]; [|discriminate].
    destruct (opt_array _ _ (s_mU _)); cbn [bind]; [|discriminate].
    destruct (solvable q) eqn:SV.
    + intros [=<- <-]. split; auto. split; cbn [vp vr r_prob]; auto.
    + intros [=<- <-]. split; [auto|apply ONE; exact Logic.I].
  - intros H. refine (@on_run_inv _ _ _ _ _ _ HV H _); clear H. intros r o1 r' ST SV [=<- <-]. split; auto. apply ONE. simpl.
    destruct (SOLV _ SV) as (_ & _ & _ & SY). destruct ST as (S1 & S2 & S3 & S4 & S5 & S6 & S7 & S8 & S9 & _). rewrite S1, S2, S7, S8. rewrite S9 in *. simpl in *.
    rewrite !Z2Nat.id by lia. split; [reflexivity|split; [reflexivity|split; [reflexivity|split; [reflexivity|]]]]. rewrite negb_true_iff, Z.eqb_neq. lia.
  - intros H. refine (@on_run_inv _ _ _ _ _ _ HV H _); clear H. intros r o1 r' ST SV [=<- <-]. split; auto. apply ONE. simpl.
    destruct ST as (S1 & S2 & S3 & S4 & S5 & S6 & _). rewrite S3, S4, S5, S6. auto.
  - intros H. refine (@on_run_inv _ _ _ _ _ _ HV H _); clear H. intros r o1 r' ST SV [=<- <-]. split; [reflexivity|apply ONE; exact Logic.I].
  - intros H. refine (@on_run_inv _ _ _ _ _ _ HV H _); clear H. intros r o1 r' ST SV [=<- <-]. split; [reflexivity|apply ONE; exact Logic.I].
  - intros H. refine (@on_run_inv _ _ _ _ _ _ HV H _); clear H. intros r o1 r' ST SV. apply EVAL. intros q. simpl. destruct ST as (S1 & S2 & S3 & S4 & S5 & S6 & S7 & S8 & S9 & T1 & T2 & T3 & T4 & T5). rewrite T1. simpl. auto.
  - intros H. refine (@on_run_inv _ _ _ _ _ _ HV H _); clear H. intros r o1 r' ST SV. apply EVAL. intros q. simpl. destruct ST as (S1 & S2 & S3 & S4 & S5 & S6 & S7 & S8 & S9 & T1 & T2 & T3 & T4 & T5). rewrite T3. simpl. auto.
  - intros H. refine (@on_run_inv _ _ _ _ _ _ HV H _); clear H. intros r o1 r' ST SV. apply EVAL. intros q. simpl. destruct (SOLV _ SV) as (G1 & G2 & G3 & _). destruct ST as (S1 & S2 & S3 & S4 & S5 & S6 & S7 & S8 & S9 & T1 & T2 & T3 & T4 & T5). rewrite T2 in *. simpl in *. auto.
  - intros H. refine (@on_run_inv _ _ _ _ _ _ HV H _); clear H. intros r o1 r' ST SV. apply EVAL. intros q. simpl. destruct (SOLV _ SV) as (G1 & G2 & G3 & _). destruct ST as (S1 & S2 & S3 & S4 & S5 & S6 & S7 & S8 & S9 & T1 & T2 & T3 & T4 & T5). rewrite T4 in *. simpl in *. auto.
  - intros H. refine (@on_run_inv _ _ _ _ _ _ HV H _); clear H. intros r o1 r' ST SV. destruct (point_after _ _ _); cbn [bind]; [|discriminate].
    destruct (match lam with None => _ | Some _ => _ end); cbn [bind]; [|discriminate]. intros [=<- <-]. split; [reflexivity|].
    constructor; [|auto]. simpl. destruct (SOLV _ SV) as (G1 & G2 & G3 & _). destruct ST as (S1 & S2 & S3 & S4 & S5 & S6 & S7 & S8 & S9 & T1 & T2 & T3 & T4 & T5). rewrite T5 in *. simpl in *. auto.
  - intros H. refine (@on_run_inv _ _ _ _ _ _ HV H _); clear H. intros r o1 r' ST SV. destruct (r_point r); [|discriminate]. destruct (point_after _ _ _); cbn [bind]; [|discriminate].
    intros [=<- <-]. auto.
  - intros H. refine (@on_run_inv _ _ _ _ _ _ HV H _); clear H. intros r o1 r' ST SV. destruct (v_inter (r_prob r)); intros [=<- <-]; (split; [reflexivity|apply ONE; exact Logic.I]).
  - intros H. refine (@on_run_inv _ _ _ _ _ _ HV H _); clear H. intros r o1 r' ST SV. destruct (r_incb r); [|discriminate]; intros [=<- <-]; (split; [reflexivity|apply ONE; exact Logic.I]).
  - destruct (vp v) as [q|] eqn:Ep; [|discriminate]. destruct (vr v) as [r|] eqn:Er; [|discriminate].
    repeat (destruct (put _ _ _ _); cbn [bind]; [|discriminate]). intros [=<- <-]. split; [split; cbn [vp vr]; auto|constructor].
  - destruct (vp v) as [q|] eqn:Ep; [|discriminate]. destruct (vr v) as [r|] eqn:Er; [|discriminate]. intros [=<- <-]. split; [|apply ONE; exact Logic.I]. split; cbn [vp vr]; auto.
  - destruct (vp v) as [q|] eqn:Ep; [|discriminate]. intros [=<- <-]. split; [auto|apply ONE; exact Logic.I].
  - destruct (vp v) as [q|] eqn:Ep; [|discriminate]. destruct (vr v) as [r|] eqn:Er; [discriminate|]. intros [=<- <-]. split; auto. split; cbn [vp vr]; auto.
Qed.

Lemma vruns_inv a xL xU gL gU es : valid_args a -> forall v o v', vinv (vproblem one a xL xU gL gU) v -> vruns junk v es = Ok (o, v') ->
  vinv (vproblem one a xL xU gL gU) v' /\ Forall (agrees a xL xU gL gU) o.
Proof.
  intros VA. induction es as [|e es IH]; intros v o v' HV; cbn [vruns]. { intros [=<- <-]; auto. }
  destruct (vstep junk v e) as [[o1 v1]|] eqn:E; cbn [bind fst snd]; [|discriminate].
  destruct (vruns junk v1 es) as [[o2 v2]|] eqn:E2; cbn [bind fst snd]; [|discriminate]. intros [=<- <-].
  destruct (@vstep_inv _ _ _ _ _ _ _ _ _ VA HV E) as (HV1 & F1). destruct (IH _ _ _ HV1 E2) as (HV2 & F2). split; auto. apply Forall_app; auto.
Qed.

(** The solver is told the sizes, the index style and the bounds given to
    CreateIpoptProblem (the contents of the arrays at that time), and the callbacks
    called are the ones given there (and none of them is NULL): in every history. *)
Theorem C36_data_of_creation : forall c a xL xU gL gU s es o s',
  arrays_hold c a xL xU gL gU -> start one junk c a = Ok (Some s) -> run junk s es = Ok (o, s') ->
  Forall (agrees a xL xU gL gU) o.
Proof.
  intros c a xL xU gL gU s es o s' AH ST RN. destruct (@run_inv _ _ _ _ _ _ ST RN) as (xL' & xU' & gL' & gU' & v' & VA & AH' & VR & _).
  assert (xL' = xL /\ xU' = xU /\ gL' = gL /\ gU' = gU) as (-> & -> & -> & ->).
  { unfold arrays_hold in *. destruct (0 <? a_m a)%Z; intuition congruence. }
  refine (proj2 (@vruns_inv _ _ _ _ _ es VA _ _ _ _ VR)). split; cbn [vp vr]; auto. repeat split; reflexivity.
Qed.

(** ** the data of a solve *)
Lemma vruns_app es1 : forall v es2, vruns junk v (es1 ++ es2) =
  (r1 <- vruns junk v es1; r2 <- vruns junk (snd r1) es2; Ok (fst r1 ++ fst r2, snd r2)).
Proof.
  induction es1 as [|e es1 IH]; intros v es2; cbn [vruns app bind fst snd].
  - destruct (vruns junk v es2) as [[o r]|]; reflexivity.
  - destruct (vstep junk v e) as [[o1 v1]|]; cbn [bind fst snd]; [|reflexivity]. rewrite IH.
    destruct (vruns junk v1 es1) as [[o2 v2]|]; cbn [bind fst snd]; [|reflexivity].
    destruct (vruns junk v2 es2) as [[o3 v3]|]; cbn [bind fst snd]; [|reflexivity]. now rewrite app_assoc.
Qed.

(** events during a solve: all but the start and the end of a solve *)
Definition within_solve (e : event V) : Prop :=
  match e with Solve _ _ _ | SolveEnd _ _ => False | _ => True end.
(** the data of a solve do not change while it lasts *)
Lemma vstep_run v e o v' r : vstep junk v e = Ok (o, v') -> vr v = Some r -> within_solve e ->
  exists r', vr v' = Some r' /\ r_prob r' = r_prob r /\ r_x r' = r_x r /\ r_lam r' = r_lam r /\ r_zL r' = r_zL r /\ r_zU r' = r_zU r /\ r_out r' = r_out r.
Proof.
  intros H Er NE.
  assert (ON : forall f, on_run v f = Ok (o, v') ->
    (forall o' r', f r = Ok (o', r') -> r_prob r' = r_prob r /\ r_x r' = r_x r /\ r_lam r' = r_lam r /\ r_zL r' = r_zL r /\ r_zU r' = r_zU r /\ r_out r' = r_out r) ->
    exists r', vr v' = Some r' /\ r_prob r' = r_prob r /\ r_x r' = r_x r /\ r_lam r' = r_lam r /\ r_zL r' = r_zL r /\ r_zU r' = r_zU r /\ r_out r' = r_out r).
  { intros f. unfold on_run. destruct (vp v); [|discriminate]. rewrite Er. destruct (f r) as [[o1 r1]|]; cbn [bind fst snd]; [|discriminate].
    intros [=<- <-] C. exists r1. split; [reflexivity|]. eapply C; reflexivity. }
  assert (EV : forall nx x call ret o' r', veval nx x call ret r = Ok (o', r') -> r_prob r' = r_prob r /\ r_x r' = r_x r /\ r_lam r' = r_lam r /\ r_zL r' = r_zL r /\ r_zU r' = r_zU r /\ r_out r' = r_out r).
  { intros nx x call ret o' r'. unfold veval. destruct (point_after nx x r); cbn [bind]; [|discriminate]. intros [=<- <-]. repeat split; reflexivity. }
  assert (K : vr v' = Some r -> exists r', vr v' = Some r' /\ r_prob r' = r_prob r /\ r_x r' = r_x r /\ r_lam r' = r_lam r /\ r_zL r' = r_zL r /\ r_zU r' = r_zU r /\ r_out r' = r_out r) by (intros KE; exists r; repeat split; auto).
  destruct e; cbn [vstep] in H; try rewrite Er in H.
  - destruct (vc v k); [discriminate|]. injection H as <- <-. auto.
  - destruct (vc v k); [|discriminate]. injection H as <- <-. auto.
  - destruct (vc v k); [|discriminate]. destruct (_ =? _); [|discriminate]. injection H as <- <-. auto.
  - destruct (vp v); [|discriminate]. destruct (opt_array _ _ xs); cbn [bind] in H; [|discriminate].
    destruct (opt_array _ _ gs); cbn [bind] in H; [|discriminate]. injection H as <- <-. auto.
  - destruct (vp v); [|discriminate]. injection H as <- <-. auto.
  - destruct (vp v); discriminate.
  - apply (ON _ H). intros o' r' [=<- <-]. repeat split; reflexivity.
  - apply (ON _ H). intros o' r' [=<- <-]. repeat split; reflexivity.
  - apply (ON _ H). intros o' r' [=<- <-]. repeat split; reflexivity.
  - apply (ON _ H). intros o' r' [=<- <-]. repeat split; reflexivity.
  - apply (ON _ H). intros o' r'. apply EV.
  - apply (ON _ H). intros o' r'. apply EV.
  - apply (ON _ H). intros o' r'. apply EV.
  - apply (ON _ H). intros o' r'. apply EV.
  - apply (ON _ H). intros o' r'. destruct (point_after _ _ _); cbn [bind]; [|discriminate].
    destruct (match lam with None => _ | Some _ => _ end); cbn [bind]; [|discriminate]. intros [=<- <-]. repeat split; reflexivity.
  - apply (ON _ H). intros o' r'. destruct (r_point r); [|discriminate]. destruct (point_after _ _ _); cbn [bind]; [|discriminate]. intros [=<- <-]. repeat split; reflexivity.
  - apply (ON _ H). intros o' r'. destruct (v_inter (r_prob r)); intros [=<- <-]; repeat split; reflexivity.
  - apply (ON _ H). intros o' r'. destruct (r_incb r); [|discriminate]; intros [=<- <-]; repeat split; reflexivity.
  - destruct (vp v); [|discriminate]. repeat (destruct (put _ _ _ _); cbn [bind] in H; [|discriminate]). injection H as <- <-. auto.
  - contradiction.
  - destruct (vp v); [|discriminate]. injection H as <- <-. auto.
  - destruct (vp v); discriminate.
Qed.
Lemma vruns_run es : forall v o v' r, vruns junk v es = Ok (o, v') -> vr v = Some r -> Forall within_solve es ->
  exists r', vr v' = Some r' /\ r_prob r' = r_prob r /\ r_x r' = r_x r /\ r_lam r' = r_lam r /\ r_zL r' = r_zL r /\ r_zU r' = r_zU r /\ r_out r' = r_out r.
Proof.
  induction es as [|e es IH]; intros v o v' r H Er NE; cbn [vruns] in H. { injection H as <- <-. exists r; repeat split; auto. }
  destruct (vstep junk v e) as [[o1 v1]|] eqn:E; cbn [bind fst snd] in H; [|discriminate].
  destruct (vruns junk v1 es) as [[o2 v2]|] eqn:E2; cbn [bind fst snd] in H; [|discriminate]. injection H as <- <-.
  inversion NE as [|? ? N1 N2]; subst.
  destruct (@vstep_run _ _ _ _ _ E Er N1) as (r1 & R1 & A1 & A2 & A3 & A4 & A5 & A6).
  destruct (IH _ _ _ _ E2 R1 N2) as (r2 & R2 & B1 & B2 & B3 & B4 & B5 & B6).
  exists r2. repeat split; congruence.
Qed.

Lemma vruns_idle es : forall v o v', vruns junk v es = Ok (o, v') -> vr v = None -> Forall within_solve es -> vr v' = None.
Proof.
  induction es as [|e es IH]; intros v o v' H Er NE; cbn [vruns] in H. { injection H as <- <-; auto. }
  destruct (vstep junk v e) as [[o1 v1]|] eqn:E; cbn [bind fst snd] in H; [|discriminate].
  destruct (vruns junk v1 es) as [[o2 v2]|] eqn:E2; cbn [bind fst snd] in H; [|discriminate]. injection H as <- <-.
  inversion NE as [|? ? N1 N2]; subst. apply (IH _ _ _ E2); auto.
  clear - E Er N1. destruct e; try contradiction; cbn [vstep] in E; unfold on_run in E; rewrite ?Er in E; destruct (vp v) eqn:Ep; try discriminate;
    repeat match type of E with
    | (match vc v ?k with _ => _ end) = _ => destruct (vc v k); try discriminate
    | (if ?b then _ else _) = _ => destruct b; try discriminate
    | bind ?x _ = _ => destruct x; cbn [bind] in E; try discriminate
    end; injection E as <- <-; auto.
Qed.

(** events that concern only the caller's arrays *)
Definition caller_only (e : event V) : Prop :=
  match e with CAlloc _ _ | CFree _ _ | CPoke _ _ | GetCurrent _ => True | _ => False end.
Lemma vruns_caller es : forall v o v', Forall caller_only es -> vruns junk v es = Ok (o, v') -> vp v' = vp v /\ vr v' = vr v.
Proof.
  induction es as [|e es IH]; intros v o v' F H; cbn [vruns] in H. { injection H as <- <-; auto. }
  inversion F as [|? ? F1 F2]; subst. destruct (vstep junk v e) as [[o1 v1]|] eqn:E; cbn [bind fst snd] in H; [|discriminate].
  destruct (vruns junk v1 es) as [[o2 v2]|] eqn:E2; cbn [bind fst snd] in H; [|discriminate]. injection H as <- <-.
  destruct (IH _ _ _ F2 E2) as (-> & ->). clear - E F1. destruct e; try contradiction; cbn [vstep] in E.
  - destruct (vc v k); [discriminate|]. injection E as <- <-. auto.
  - destruct (vc v k); [|discriminate]. injection E as <- <-. auto.
  - destruct (vc v k); [|discriminate]. destruct (_ =? _); [|discriminate]. injection E as <- <-. auto.
  - destruct (vp v) eqn:Ep; [|discriminate]. injection E as <- <-. auto.
Qed.


Lemma vstep_solve v sa o v' q : vstep junk v (Solve _ sa Solve_Succeeded) = Ok (o, v') -> vp v = Some q -> vr v = None ->
  vr v' = None \/
  (exists x lam zL zU, opt_array (vc v) (v_n q) (s_x sa) = Ok (Some x) /\ opt_array (vc v) (v_m q) (s_mg sa) = Ok lam /\
     opt_array (vc v) (v_n q) (s_mL sa) = Ok zL /\ opt_array (vc v) (v_n q) (s_mU sa) = Ok zU /\ solvable q = true /\
     vr v' = Some (VRun q x lam zL zU sa None false)).
Proof.
  intros E Ep Er. cbn [vstep] in E. rewrite Ep, Er in E. change (negb (Solve_Succeeded =? Solve_Succeeded)%Z) with false in E. cbn iota in E.
  destruct (opt_array _ _ (s_x sa)) as [[x|]|]; cbn [bind] in E; [| |discriminate].
  - destruct (opt_array _ _ (s_mg sa)) as [lam|]; cbn [bind] in E; [|discriminate].
    destruct (opt_array _ _ (s_mL sa)) as [zL|]; cbn [bind] in E; [|discriminate].
    destruct (opt_array _ _ (s_mU sa)) as [zU|]; cbn [bind] in E; [|discriminate].
    destruct (solvable q) eqn:SV; injection E as <- <-; [|left; auto]. right. exists x, lam, zL, zU. repeat split; auto.
  - injection E as <- <-. left; auto.
Qed.

Lemma start_static c a s es o s' : start one junk c a = Ok (Some s) -> run junk s es = Ok (o, s') ->
  exists v, R s' v /\ forall q, vp v = Some q -> v_n q = Z.to_nat (a_n a) /\ v_m q = Z.to_nat (a_m a).
Proof.
  intros ST R0. destruct (@run_inv _ _ _ _ _ _ ST R0) as (xL & xU & gL & gU & v0 & VA & AH & V0 & HR). exists v0. split; auto.
  assert (I0 : vinv (vproblem one a xL xU gL gU) (VSt c (Some (vproblem one a xL xU gL gU)) None)) by (split; cbn [vp vr]; auto; repeat split; reflexivity).
  destruct (@vruns_inv _ xL xU gL gU es VA _ _ _ I0 V0) as ((VI & _) & _). intros q Eq. rewrite Eq in VI. destruct VI as (N1 & N2 & _). auto.
Qed.

(** The scaling that the solver is given during a solve is what was behind the arrays
    of the last SetIpoptProblemScaling before it, at the time of that call: also if the
    caller has changed or deleted them meanwhile, and also if SetIpoptProblemScaling is
    called again while the solve is running. *)
Theorem C36_scaling_of_last_set : forall c a s es0 o0 s0 obj xs gs es1 sa es2 o s',
  start one junk c a = Ok (Some s) -> run junk s es0 = Ok (o0, s0) ->
  Forall caller_only es1 -> Forall within_solve es2 ->
  run junk s0 (SetScaling obj xs gs :: es1 ++ Solve _ sa Solve_Succeeded :: es2 ++ [Scaling _]) = Ok (o, s') ->
  exists ox og o1, opt_array (cl (sm s0)) (Z.to_nat (a_n a)) xs = Ok ox /\ opt_array (cl (sm s0)) (Z.to_nat (a_m a)) gs = Ok og /\
    o = o1 ++ [OScaling obj ox og].
Proof.
  intros c a s es0 o0 s0 obj xs gs es1 sa es2 o s' ST R0 F1 F2 RN.
  destruct (@start_static _ _ _ _ _ _ ST R0) as (v0 & HR & VI).
  pose proof (run_R (SetScaling obj xs gs :: es1 ++ Solve _ sa Solve_Succeeded :: es2 ++ [Scaling _]) HR) as Q. rewrite RN in Q.
  destruct (vruns junk v0 _) as [[o' v']|] eqn:EV; [|contradiction]. destruct Q as (<- & _).
  cbn [vruns] in EV. destruct (vstep junk v0 (SetScaling obj xs gs)) as [[o1 v1]|] eqn:E1; cbn [bind fst snd] in EV; [|discriminate].
  rewrite vruns_app in EV. destruct (vruns junk v1 es1) as [[o2 v2]|] eqn:E2; cbn [bind fst snd] in EV; [|discriminate].
  cbn [vruns] in EV. destruct (vstep junk v2 (Solve _ sa Solve_Succeeded)) as [[o3 v3]|] eqn:E3; cbn [bind fst snd] in EV; [|discriminate].
  rewrite vruns_app in EV. destruct (vruns junk v3 es2) as [[o4 v4]|] eqn:E4; cbn [bind fst snd] in EV; [|discriminate].
  cbn [vruns] in EV. destruct (vstep junk v4 (Scaling _)) as [[o5 v5]|] eqn:E5; cbn [bind fst snd] in EV; [|discriminate]. injection EV as <- _.
  cbn [vstep] in E1. pose proof (R_cl HR) as EC. rewrite EC. destruct (vp v0) as [q|] eqn:Ep; [|discriminate].
  destruct (VI q eq_refl) as (SN & SM). rewrite SN, SM in E1. destruct (opt_array (vc v0) _ xs) as [ox|]; cbn [bind] in E1; [|discriminate].
  destruct (opt_array (vc v0) _ gs) as [og|]; cbn [bind] in E1; [|discriminate]. injection E1 as <- <-.
  destruct (@vruns_caller es1 _ _ _ F1 E2) as (P2 & Q2). cbn [vp vr] in P2, Q2.
  assert (N2 : vr v2 = None). { destruct (vr v2) eqn:E; auto. cbn [vstep] in E3. rewrite E in E3. destruct (vp v2); discriminate. }
  cbn [vstep] in E5. unfold on_run in E5. destruct (vp v4) eqn:Ep4; [|discriminate]. destruct (vr v4) as [r4|] eqn:Er4; [|discriminate].
  destruct (@vstep_solve _ _ _ _ _ E3 P2 N2) as [N3|(x & lam & zL & zU & _ & _ & _ & _ & _ & S3)].
  { rewrite (@vruns_idle es2 _ _ _ E4 N3 F2) in Er4. discriminate. }
  destruct (@vruns_run es2 _ _ _ _ E4 S3 F2) as (r' & E & A & _). rewrite E in Er4. injection Er4 as <-. rewrite A in E5. cbn in E5.
  injection E5 as <- _. exists ox, og. exists (([OReply V true] ++ o2 ++ o3 ++ o4)). repeat split; auto. rewrite <- !app_assoc. simpl. rewrite ?app_nil_r. reflexivity.
Qed.

(** The starting point that the solver gets is what was in the caller's arrays when
    IpoptSolve was called: the x given there, and the multipliers if they were given
    (and the request fails if they were not) -- although the same arrays are the output
    arrays, and whatever the callbacks do to them. *)
Theorem C36_starting_point_of_solve : forall c a s es0 o0 s0 sa es2 ix iz il o s',
  start one junk c a = Ok (Some s) -> run junk s es0 = Ok (o0, s0) -> Forall within_solve es2 ->
  run junk s0 (Solve _ sa Solve_Succeeded :: es2 ++ [StartingPoint _ ix iz il]) = Ok (o, s') ->
  exists x lam zL zU o1, opt_array (cl (sm s0)) (Z.to_nat (a_n a)) (s_x sa) = Ok (Some x) /\
    opt_array (cl (sm s0)) (Z.to_nat (a_m a)) (s_mg sa) = Ok lam /\
    opt_array (cl (sm s0)) (Z.to_nat (a_n a)) (s_mL sa) = Ok zL /\ opt_array (cl (sm s0)) (Z.to_nat (a_n a)) (s_mU sa) = Ok zU /\
    o = o1 ++ [OStart ((negb iz || (is_some zL && is_some zU)) && (negb il || is_some lam))
                 (if ix then Some x else None) (if iz then zL else None) (if iz then zU else None) (if il then lam else None)].
Proof.
  intros c a s es0 o0 s0 sa es2 ix iz il o s' ST R0 F2 RN.
  destruct (@start_static _ _ _ _ _ _ ST R0) as (v0 & HR & VI).
  pose proof (run_R (Solve _ sa Solve_Succeeded :: es2 ++ [StartingPoint _ ix iz il]) HR) as Q. rewrite RN in Q.
  destruct (vruns junk v0 _) as [[o' v']|] eqn:EV; [|contradiction]. destruct Q as (<- & _).
  cbn [vruns] in EV. destruct (vstep junk v0 (Solve _ sa Solve_Succeeded)) as [[o3 v3]|] eqn:E3; cbn [bind fst snd] in EV; [|discriminate].
  rewrite vruns_app in EV. destruct (vruns junk v3 es2) as [[o4 v4]|] eqn:E4; cbn [bind fst snd] in EV; [|discriminate].
  cbn [vruns] in EV. destruct (vstep junk v4 (StartingPoint _ ix iz il)) as [[o5 v5]|] eqn:E5; cbn [bind fst snd] in EV; [|discriminate]. injection EV as <- _.
  destruct (vp v0) as [q|] eqn:Ep0. 2:{ cbn [vstep] in E3. rewrite Ep0 in E3. discriminate. }
  destruct (vr v0) as [r|] eqn:Er0. { cbn [vstep] in E3. rewrite Ep0, Er0 in E3. discriminate. }
  destruct (VI q eq_refl) as (SN & SM). pose proof (R_cl HR) as EC. rewrite EC, <- SN, <- SM.
  cbn [vstep] in E5. unfold on_run in E5. destruct (vp v4) eqn:Ep4; [|discriminate]. destruct (vr v4) as [r4|] eqn:Er4; [|discriminate].
  destruct (@vstep_solve _ _ _ _ _ E3 Ep0 Er0) as [N3|(x & lam & zL & zU & X1 & X2 & X3 & X4 & _ & S3)].
  { rewrite (@vruns_idle es2 _ _ _ E4 N3 F2) in Er4. discriminate. }
  destruct (@vruns_run es2 _ _ _ _ E4 S3 F2) as (r' & E & A1 & A2 & A3 & A4 & A5 & A6). rewrite E in Er4. injection Er4 as <-.
  rewrite A2, A3, A4, A5 in E5. cbn in E5. injection E5 as <- _.
  exists x, lam, zL, zU, (o3 ++ o4). repeat (split; [assumption|]). rewrite <- !app_assoc. simpl. reflexivity.
Qed.

(** ** what can be solved *)
(** IpoptSolve starts the solver exactly if all five callbacks and x are given and the
    index style is 0 or 1 (the arrays being long enough); else it returns
    Invalid_Problem_Definition, and nothing else happens. *)
Theorem C36_solve_starts_iff : forall c a s es0 o0 s0 sa o s',
  start one junk c a = Ok (Some s) -> run junk s es0 = Ok (o0, s0) ->
  step junk s0 (Solve _ sa Solve_Succeeded) = Ok (o, s') ->
  ((sr s' <> None /\ o = []) <-> (a_g a <> None /\ a_jg a <> None /\ a_h a <> None /\ (a_style a = 0 \/ a_style a = 1)%Z /\ s_x sa <> None)) /\
  (sr s' = None -> o = [OStatus V Invalid_Problem_Definition] /\ forall k, cl (sm s') k = cl (sm s0) k).
Proof.
  intros c a s es0 o0 s0 sa o s' ST R0 E.
  destruct (@run_inv _ _ _ _ _ _ ST R0) as (xL & xU & gL & gU & v0 & VA & AH & V0 & HR).
  assert (I0 : vinv (vproblem one a xL xU gL gU) (VSt c (Some (vproblem one a xL xU gL gU)) None)) by (split; cbn [vp vr]; auto; repeat split; reflexivity).
  destruct (@vruns_inv _ xL xU gL gU es0 VA _ _ _ I0 V0) as ((VI & _) & _).
  pose proof (step_sim junk (Solve _ sa Solve_Succeeded) HR) as Q. rewrite E in Q. unfold sim in Q.
  destruct (vstep junk v0 _) as [[o' v']|] eqn:EV; [|contradiction]. destruct Q as (<- & HR').
  assert (SR : sr s' = None <-> vr v' = None). { destruct HR'. destruct (sr s'), (vr v'); try contradiction; split; congruence. }
  cbn [vstep] in EV. destruct (vp v0) as [q|]; [|discriminate]. destruct (vr v0) eqn:Er; [discriminate|].
  change (negb (Solve_Succeeded =? Solve_Succeeded)%Z) with false in EV. cbn iota in EV.
  destruct VI as (N1 & N2 & _ & _ & _ & _ & _ & _ & N9 & _ & T2 & _ & T4 & T5). simpl in N9, T2, T4, T5.
  assert (SV : solvable q = true <-> (a_g a <> None /\ a_jg a <> None /\ a_h a <> None /\ (a_style a = 0 \/ a_style a = 1)%Z)).
  { unfold solvable. rewrite !andb_true_iff, !is_some_iff, orb_true_iff, !Z.eqb_eq, N9, T2, T4, T5. tauto. }
  assert (OX : forall r, opt_array (vc v0) (v_n q) (s_x sa) = Ok r -> (r = None <-> s_x sa = None)).
  { intros r. unfold opt_array. destruct (s_x sa); [|intros [=<-]; tauto]. destruct (_ =? _); [intros [=<-]; split; discriminate|].
    destruct (array _ _ _); [intros [=<-]; split; discriminate|discriminate]. }
  destruct (opt_array _ _ (s_x sa)) as [[x|]|]; cbn [bind] in EV; [| |discriminate].
  - specialize (OX _ eq_refl).
    repeat (destruct (opt_array _ _ _) in EV; cbn [bind] in EV; [|discriminate]).
    destruct (solvable q).
    + injection EV as <- <-. cbn [vr] in SR. split.
      * split; [intros _|intros _; split; [rewrite SR; discriminate|reflexivity]]. destruct (proj1 SV eq_refl) as (B1 & B2 & B3 & B4).
        repeat (split; [assumption|]). intros C. apply OX in C. discriminate.
      * intros C. apply SR in C. discriminate.
    + injection EV as <- <-. split.
      * split; [intros (C & _); exfalso; apply C, SR; auto|]. intros (B1 & B2 & B3 & B4 & _). exfalso. assert (false = true) by (apply SV; auto). discriminate.
      * intros _. split; [reflexivity|]. intros k. rewrite (R_cl HR), (R_cl HR'). reflexivity.
  - injection EV as <- <-. specialize (OX _ eq_refl). split.
    + split; [intros (C & _); exfalso; apply C, SR; auto|]. intros (_ & _ & _ & _ & B). exfalso. apply B, OX. reflexivity.
    + intros _. split; [reflexivity|]. intros k. rewrite (R_cl HR), (R_cl HR'). reflexivity.
Qed.

(** ** the point the callbacks see *)
(** the point and the new_x flag with which the solver calls an evaluation method *)
Definition eval_of (e : event V) : option (list V * bool) :=
  match e with
  | EvalF x nx _ | EvalGradF x nx _ | EvalG x nx _ | EvalJac x nx _ => Some (x, nx)
  | EvalH x nx _ _ _ _ => Some (x, nx)
  | _ => None end.
(** flags are used rightly: new_x = false only if x is the point of the call before;
    and no callback writes into its argument x *)
Fixpoint right_flags (last : option (list V)) (es : list (event V)) : Prop :=
  match es with
  | [] => True
  | CbWritesX _ :: _ => False
  | e :: es => match eval_of e with
               | Some (x, nx) => (nx = true \/ last = Some x) /\ right_flags (Some x) es
               | None => right_flags last es end
  end.
Definition points (es : list (event V)) : list (option (list V)) :=
  flat_map (fun e => match eval_of e with Some (x, _) => [Some x] | None => [] end) es.
(** the points that the callbacks were given *)
Definition seen (o : list (obs V)) : list (option (list V)) :=
  flat_map (fun b => match b with
    | OCallF _ x _ _ | OCallGradF _ x _ _ | OCallG _ x _ _ | OCallJac _ x _ _ => [x]
    | OCallH _ x _ _ _ _ _ => [x]
    | _ => [] end) o.

Lemma seen_app o1 o2 : seen (o1 ++ o2) = seen o1 ++ seen o2.
Proof. apply flat_map_app. Qed.

Lemma vstep_seen v e o v' r n : vstep junk v e = Ok (o, v') -> vr v = Some r -> v_n (r_prob r) = n -> within_solve e ->
  (forall x, e <> CbWritesX x) ->
  match eval_of e with
  | Some (x, nx) => length x = n -> (nx = true \/ r_point r = Some x) -> seen o = [Some x] /\ (forall r', vr v' = Some r' -> r_point r' = Some x)
  | None => seen o = [] /\ (forall r', vr v' = Some r' -> r_point r' = r_point r)
  end.
Proof.
  intros E Er N W NW. subst n.
  assert (EV : forall x nx call ret, on_run v (fun r => veval nx x (call r) ret r) = Ok (o, v') -> (forall q, seen [call r q] = [q]) ->
    length x = v_n (r_prob r) -> (nx = true \/ r_point r = Some x) -> seen o = [Some x] /\ (forall r', vr v' = Some r' -> r_point r' = Some x)).
  { intros x nx call ret H HC L D. unfold on_run, veval, point_after in H. destruct (vp v); [|discriminate]. rewrite Er in H.
    assert (Q : (if nx then if v_n (r_prob r) <=? length x then Ok (Some (firstn (v_n (r_prob r)) x)) else Undef else Ok (r_point r)) = Ok (Some x)).
    { destruct nx. - rewrite L, Nat.leb_refl, <- L, firstn_all. reflexivity. - destruct D as [D|D]; [discriminate|now rewrite D]. }
    rewrite Q in H. cbn [bind fst snd] in H. injection H as <- <-. split.
    - change (seen ([call r (Some x)] ++ [answered V ret]) = [Some x]). rewrite seen_app, HC. reflexivity.
    - cbn [vr]. intros r' [=<-]. reflexivity. }
  destruct e; cbn [eval_of]; try contradiction; cbn [vstep] in E; try rewrite Er in E.
  - destruct (vc v k); [discriminate|]. injection E as <- <-. split; auto. cbn; intros r'; rewrite ?Er; intros [=<-]; auto.
  - destruct (vc v k); [|discriminate]. injection E as <- <-. split; auto. cbn; intros r'; rewrite ?Er; intros [=<-]; auto.
  - destruct (vc v k); [|discriminate]. destruct (_ =? _); [|discriminate]. injection E as <- <-. split; auto. cbn; intros r'; rewrite ?Er; intros [=<-]; auto.
  - destruct (vp v); [|discriminate]. destruct (opt_array _ _ xs); cbn [bind] in E; [|discriminate].
    destruct (opt_array _ _ gs); cbn [bind] in E; [|discriminate]. injection E as <- <-. split; auto. cbn; intros r'; rewrite ?Er; intros [=<-]; auto.
  - destruct (vp v); [|discriminate]. injection E as <- <-. split; auto. cbn; intros r'; rewrite ?Er; intros [=<-]; auto.
  - unfold on_run in E. destruct (vp v); [|discriminate]. rewrite Er in E. injection E as <- <-. split; auto. cbn; intros r' [=<-]; auto.
  - unfold on_run in E. destruct (vp v); [|discriminate]. rewrite Er in E. injection E as <- <-. split; auto. cbn; intros r' [=<-]; auto.
  - unfold on_run in E. destruct (vp v); [|discriminate]. rewrite Er in E. injection E as <- <-. split; auto. cbn; intros r' [=<-]; auto.
  - unfold on_run in E. destruct (vp v); [|discriminate]. rewrite Er in E. injection E as <- <-. split; auto. cbn; intros r' [=<-]; auto.
  - apply (EV x new_x (fun r q => OCallF (v_f (r_prob r)) q new_x (s_user (r_out r))) ret); auto.
  - apply (EV x new_x (fun r q => OCallGradF (v_gf (r_prob r)) q new_x (s_user (r_out r))) ret); auto.
  - apply (EV x new_x (fun r q => OCallG (v_g (r_prob r)) q new_x (s_user (r_out r))) ret); auto.
  - apply (EV x new_x (fun r q => OCallJac (v_jg (r_prob r)) q new_x (s_user (r_out r))) ret); auto.
  - intros L D. unfold on_run, point_after in E. destruct (vp v); [|discriminate]. rewrite Er in E.
    assert (Q : (if new_x then if v_n (r_prob r) <=? length x then Ok (Some (firstn (v_n (r_prob r)) x)) else Undef else Ok (r_point r)) = Ok (Some x)).
    { destruct new_x. - rewrite L, Nat.leb_refl, <- L, firstn_all. reflexivity. - destruct D as [D|D]; [discriminate|now rewrite D]. }
    rewrite Q in E. cbn [bind fst snd] in E. destruct (match lam with None => _ | Some _ => _ end); cbn [bind fst snd] in E; [|discriminate].
    injection E as <- <-. split; auto. cbn; intros r' [=<-]; auto.
  - exfalso. exact (NW x eq_refl).
  - unfold on_run in E. destruct (vp v); [|discriminate]. rewrite Er in E. destruct (v_inter (r_prob r)); cbn [bind fst snd] in E; injection E as <- <-; (split; auto; cbn; intros r' [=<-]; auto).
  - unfold on_run in E. destruct (vp v); [|discriminate]. rewrite Er in E. destruct (r_incb r); cbn [bind fst snd] in E; [|discriminate]. injection E as <- <-. split; auto. cbn; intros r' [=<-]; auto.
  - destruct (vp v); [|discriminate]. repeat (destruct (put _ _ _ _); cbn [bind] in E; [|discriminate]). injection E as <- <-. split; auto. cbn; intros r' [=<-]; auto.
  - destruct (vp v); [|discriminate]. injection E as <- <-. split; auto. rewrite Er. intros r' [=<-]; auto.
  - destruct (vp v); discriminate.
Qed.

Lemma vruns_seen es : forall v o v' r, vruns junk v es = Ok (o, v') -> vr v = Some r -> Forall within_solve es ->
  Forall (fun e => forall x nx, eval_of e = Some (x, nx) -> length x = v_n (r_prob r)) es -> right_flags (r_point r) es ->
  seen o = points es.
Proof.
  induction es as [|e es IH]; intros v o v' r H Er FW FL RF; cbn [vruns] in H. { injection H as <- <-; reflexivity. }
  destruct (vstep junk v e) as [[o1 v1]|] eqn:E; cbn [bind fst snd] in H; [|discriminate].
  destruct (vruns junk v1 es) as [[o2 v2]|] eqn:E2; cbn [bind fst snd] in H; [|discriminate]. injection H as <- <-.
  inversion FW as [|? ? W1 W2]; subst. inversion FL as [|? ? L1 L2]; subst.
  destruct (@vstep_run _ _ _ _ _ E Er W1) as (r1 & R1 & A1 & _).
  assert (NW : forall x, e <> CbWritesX x) by (intros x ->; exact RF).
  pose proof (@vstep_seen _ _ _ _ _ _ E Er eq_refl W1 NW) as SS. rewrite seen_app. unfold points; cbn [flat_map]; fold (points es).
  assert (RF' : match eval_of e with Some (x, nx) => (nx = true \/ r_point r = Some x) /\ right_flags (Some x) es | None => right_flags (r_point r) es end)
    by (destruct e; try contradiction; exact RF).
  destruct (eval_of e) as [[x nx]|] eqn:EE.
  - destruct RF' as (D & RF'). destruct (SS (L1 x nx eq_refl) D) as (-> & S2). simpl app. f_equal.
    apply (IH _ _ _ _ E2 R1 W2). + rewrite A1. exact L2. + rewrite (S2 _ R1). exact RF'.
  - destruct SS as (-> & S2). simpl app. apply (IH _ _ _ _ E2 R1 W2). + rewrite A1. exact L2. + rewrite (S2 _ R1). exact RF'.
Qed.

(** Every evaluation callback finds in its argument x exactly the point for which the
    solver wants the value -- provided that the solver sets new_x rightly and that no
    callback writes into that array. *)
Theorem C53_callbacks_see_the_point : forall c a s es0 o0 s0 sa es o s',
  start one junk c a = Ok (Some s) -> run junk s es0 = Ok (o0, s0) -> Forall within_solve es ->
  Forall (fun e => forall x nx, eval_of e = Some (x, nx) -> Z.of_nat (length x) = a_n a) es ->
  right_flags None es ->
  run junk s0 (Solve _ sa Solve_Succeeded :: es) = Ok (o, s') -> sr s' <> None ->
  seen o = points es.
Proof.
  intros c a s es0 o0 s0 sa es o s' ST R0 FW FL RF RN NN.
  destruct (@start_static _ _ _ _ _ _ ST R0) as (v0 & HR & VI).
  pose proof (run_R (Solve _ sa Solve_Succeeded :: es) HR) as Q. rewrite RN in Q.
  destruct (vruns junk v0 _) as [[o' v']|] eqn:EV; [|contradiction]. destruct Q as (<- & HR').
  cbn [vruns] in EV. destruct (vstep junk v0 (Solve _ sa Solve_Succeeded)) as [[o3 v3]|] eqn:E3; cbn [bind fst snd] in EV; [|discriminate].
  destruct (vruns junk v3 es) as [[o4 v4]|] eqn:E4; cbn [bind fst snd] in EV; [|discriminate]. injection EV as <- <-.
  destruct (vp v0) as [q|] eqn:Ep0. 2:{ cbn [vstep] in E3. rewrite Ep0 in E3. discriminate. }
  destruct (vr v0) as [r|] eqn:Er0. { cbn [vstep] in E3. rewrite Ep0, Er0 in E3. discriminate. }
  destruct (VI q eq_refl) as (SN & SM).
  assert (NV : vr v4 <> None). { destruct HR'. destruct (sr s'), (vr v4); try contradiction; congruence. }
  destruct (@vstep_solve _ _ _ _ _ E3 Ep0 Er0) as [N3|(x & lam & zL & zU & X1 & X2 & X3 & X4 & SV & S3)].
  { exfalso. apply NV. apply (@vruns_idle es _ _ _ E4 N3 FW). }
  assert (O3 : o3 = []).
  { revert E3. cbn [vstep]. rewrite Ep0, Er0, X1, X2, X3, X4, SV. cbn. intros [=<- _]. reflexivity. }
  rewrite O3. simpl app. apply (@vruns_seen es _ _ _ _ E4 S3 FW); simpl.
  - apply Forall_forall. intros e In x1 nx Ee. rewrite Forall_forall in FL. specialize (FL e In x1 nx Ee). rewrite SN. lia.
  - exact RF.
Qed.

(** ** the results *)
Definition puts (l : list (nat * list V * option nat)) (c : cmap) : res cmap :=
  fold_left (fun r w => c <- r; put (fst (fst w)) (snd (fst w)) (snd w) c) l (Ok c).
Lemma puts_undef l : fold_left (fun r w => c <- r; put (fst (fst w)) (snd (fst w)) (snd w) c) l (@Undef cmap) = Undef.
Proof. induction l; auto. Qed.
Lemma puts_other l : forall c c', puts l c = Ok c' -> forall k, (forall w, In w l -> snd w <> Some k) -> c' k = c k.
Proof.
  unfold puts. induction l as [|[[n v] p] l IH]; intros c c' H k NI; simpl in H. { injection H as <-; auto. }
  destruct (put n v p c) as [c1|] eqn:E; [|rewrite puts_undef in H; discriminate].
  rewrite (IH _ _ H k) by (intros w Hw; apply NI; right; auto).
  unfold put in E. destruct p as [b|]; [|injection E as <-; auto]. destruct (n =? 0); [injection E as <-; auto|].
  destruct (c b); [|discriminate]. destruct (_ && _); [|discriminate]. injection E as <-. apply upd_other.
  intros ->. apply (NI (n, v, Some b) (or_introl eq_refl)). reflexivity.
Qed.
Lemma puts_at l : forall c c', puts l c = Ok c' -> NoDup (filter (@is_some nat) (map snd l)) ->
  forall n v b, In (n, v, Some b) l -> n = length v -> n <> 0 -> exists l0, c b = Some l0 /\ n <= length l0 /\ c' b = Some (v ++ skipn n l0).
Proof.
  unfold puts. induction l as [|[[n v] p] l IH]; intros c c' H ND n' v' b HI L NZ; [contradiction|]. simpl in H.
  destruct (put n v p c) as [c1|] eqn:E; [|rewrite puts_undef in H; discriminate].
  destruct HI as [[= -> -> ->]|HI].
  - simpl in ND. inversion ND as [|? ? NI ND']; subst.
    rewrite (@puts_other l c1 c' H b).
    + revert E. unfold put. destruct (Nat.eqb_spec (length v') 0); [lia|]. destruct (c b) as [l0|]; [|discriminate].
      destruct (Nat.leb_spec (length v') (length l0)); [|discriminate]. rewrite Nat.leb_refl. cbn [andb]. intros [=<-]. exists l0. split; auto. split; auto.
      rewrite upd_same, firstn_all. reflexivity.
    + intros [[n2 v2] p2] Hw E2. simpl in E2. subst p2. apply NI. apply filter_In. split; [|reflexivity].
      apply in_map_iff. exists (n2, v2, Some b). auto.
  - assert (ND' : NoDup (filter (@is_some nat) (map snd l))) by (simpl in ND; destruct p; simpl in ND; [inversion ND; auto|auto]).
    destruct (IH _ _ H ND' n' v' b HI L NZ) as (l0 & A & B & C). exists l0. split; [|auto].
    rewrite <- A. symmetry. unfold put in E. destruct p as [b'|]; [|injection E as <-; auto]. destruct (n =? 0); [injection E as <-; auto|].
    destruct (c b'); [|discriminate]. destruct (_ && _); [|discriminate]. injection E as <-. apply upd_other.
    intros ->. simpl in ND. inversion ND as [|? ? NI _]; subst. apply NI. apply filter_In. split; [|reflexivity].
    apply in_map_iff. eexists; split; [|exact HI]; reflexivity.
Qed.

(** When the solver delivers its results, the numbers arrive in the caller's arrays
    that were passed to IpoptSolve: each array that is not NULL gets its result (the
    rest of a longer array stays), and no other array of the caller is touched. The
    arrays that are not NULL must be different. *)
Theorem C53_results_arrive : forall c a s es0 o0 s0 sa es o1 s1 x zL zU g lam objv o2 s2,
  start one junk c a = Ok (Some s) -> run junk s es0 = Ok (o0, s0) -> Forall within_solve es ->
  run junk s0 (Solve _ sa Solve_Succeeded :: es) = Ok (o1, s1) ->
  step junk s1 (Finalize x zL zU g lam objv) = Ok (o2, s2) ->
  let out := [(length x, x, s_x sa); (length zL, zL, s_mL sa); (length zU, zU, s_mU sa); (length g, g, s_g sa); (length lam, lam, s_mg sa); (1, [objv], s_objv sa)] in
  Z.of_nat (length x) = a_n a -> length zL = length x -> length zU = length x -> Z.of_nat (length g) = a_m a -> length lam = length g ->
  NoDup (filter (@is_some nat) (map snd out)) ->
  (forall n v b, In (n, v, Some b) out -> n <> 0 -> exists l0, cl (sm s1) b = Some l0 /\ n <= length l0 /\ cl (sm s2) b = Some (v ++ skipn n l0)) /\
  (forall k, (forall w, In w out -> snd w <> Some k) -> cl (sm s2) k = cl (sm s1) k).
Proof.
  intros c a s es0 o0 s0 sa es o1 s1 x zL zU g lam objv o2 s2 ST R0 FW RN EF out LX LL LU LG LA ND.
  destruct (@start_static _ _ _ _ _ _ ST R0) as (v0 & HR & VI).
  pose proof (run_R (Solve _ sa Solve_Succeeded :: es) HR) as Q. rewrite RN in Q.
  destruct (vruns junk v0 _) as [[o' v1]|] eqn:EV; [|contradiction]. destruct Q as (<- & HR1).
  pose proof (step_sim junk (Finalize x zL zU g lam objv) HR1) as Q. rewrite EF in Q. unfold sim in Q.
  destruct (vstep junk v1 _) as [[o2' v2]|] eqn:EV2; [|contradiction]. destruct Q as (<- & HR2).
  rewrite (R_cl HR1), (R_cl HR2).
  cbn [vruns] in EV. destruct (vstep junk v0 (Solve _ sa Solve_Succeeded)) as [[o3 v3]|] eqn:E3; cbn [bind fst snd] in EV; [|discriminate].
  destruct (vruns junk v3 es) as [[o4 v4]|] eqn:E4; cbn [bind fst snd] in EV; [|discriminate]. injection EV as <- <-.
  destruct (vp v0) as [q|] eqn:Ep0. 2:{ cbn [vstep] in E3. rewrite Ep0 in E3. discriminate. }
  destruct (vr v0) as [r|] eqn:Er0. { cbn [vstep] in E3. rewrite Ep0, Er0 in E3. discriminate. }
  destruct (VI q eq_refl) as (SN & SM).
  cbn [vstep] in EV2. destruct (vp v4) as [q4|] eqn:Ep4; [|discriminate]. destruct (vr v4) as [r4|] eqn:Er4; [|discriminate].
  destruct (@vstep_solve _ _ _ _ _ E3 Ep0 Er0) as [N3|(x3 & lam3 & zL3 & zU3 & X1 & X2 & X3 & X4 & SV & S3)].
  { rewrite (@vruns_idle es _ _ _ E4 N3 FW) in Er4. discriminate. }
  destruct (@vruns_run es _ _ _ _ E4 S3 FW) as (r' & E & A1 & A2 & A3 & A4 & A5 & A6). rewrite E in Er4. injection Er4 as <-.
  rewrite A1, A6 in EV2. cbn [r_prob r_out] in EV2. rewrite SN, SM in EV2.
  assert (P : puts out (vc v4) = Ok (vc v2)).
  { unfold puts, out. cbn [fold_left bind fst snd]. rewrite LL, LU, LA. replace (length x) with (Z.to_nat (a_n a)) by lia. replace (length g) with (Z.to_nat (a_m a)) by lia.
    repeat (destruct (put _ _ _ _); cbn [bind] in *; [|discriminate]). injection EV2 as _ <-. reflexivity. }
  split.
  - intros n v b HI NZ. apply (@puts_at out _ _ P ND n v b HI); auto.
    unfold out in HI. destruct HI as [[= <- <- _]|[[= <- <- _]|[[= <- <- _]|[[= <- <- _]|[[= <- <- _]|[[= <- <- _]|[]]]]]]]; reflexivity.
  - apply (puts_other _ _ P).
Qed.

(** The current iterate is available exactly while the user's intermediate callback is
    running: never outside a solve, and never when no such callback was set before the
    solve. *)
Fixpoint in_callback (cb : bool) (es : list (event V)) : bool :=
  match es with
  | [] => cb
  | InterBegin _ :: es => in_callback true es
  | InterEnd _ _ :: es => in_callback false es
  | _ :: es => in_callback cb es
  end.
Lemma vruns_incb es : forall v o v' r, vruns junk v es = Ok (o, v') -> vr v = Some r -> Forall within_solve es ->
  (v_inter (r_prob r) = None -> r_incb r = false) ->
  exists r', vr v' = Some r' /\ r_incb r' = is_some (v_inter (r_prob r)) && in_callback (r_incb r) es.
Proof.
  induction es as [|e es IH]; intros v o v' r H Er FW HI; cbn [vruns] in H.
  { injection H as <- <-. exists r. split; auto. simpl. destruct (v_inter _); [auto|apply HI; auto]. }
  destruct (vstep junk v e) as [[o1 v1]|] eqn:E; cbn [bind fst snd] in H; [|discriminate].
  destruct (vruns junk v1 es) as [[o2 v2]|] eqn:E2; cbn [bind fst snd] in H; [|discriminate]. injection H as <- <-.
  inversion FW as [|? ? W1 W2]; subst.
  destruct (@vstep_run _ _ _ _ _ E Er W1) as (r1 & R1 & A1 & _).
  assert (EQ : match e with InterBegin _ => r_incb r1 = match v_inter (r_prob r) with Some _ => true | None => r_incb r end
                     | InterEnd _ _ => r_incb r1 = false /\ r_incb r = true | _ => r_incb r1 = r_incb r end).
  { destruct e; try contradiction; cbn [vstep] in E; unfold on_run in E; try rewrite Er in E.
    all: try (destruct (vc v k); try discriminate; try (destruct (_ =? _); try discriminate); injection E as <- <-; cbn [vr] in R1; rewrite ?Er in R1; injection R1 as <-; reflexivity).
    all: try (destruct (vp v); [|discriminate]; rewrite ?Er in E).
    all: try discriminate.
    all: unfold veval in *.
    all: try (repeat match type of E with
      | bind (bind ?x _) _ = _ => destruct x; cbn [bind] in E; [|discriminate]
      | bind ?x _ = _ => destruct x; cbn [bind] in E; [|discriminate]
      end; cbn [bind fst snd] in E; injection E as <- <-; cbn [vr] in R1; rewrite ?Er in R1; injection R1 as <-; reflexivity).
    all: try (cbn [bind fst snd] in E; injection E as <- <-; cbn [vr] in R1; injection R1 as <-; reflexivity).
    - destruct (r_point r); cbn [bind] in E; [|discriminate]. destruct (point_after _ _ _); cbn [bind fst snd] in E; [|discriminate]. injection E as <- <-. cbn [vr] in R1. injection R1 as <-. reflexivity.
    - destruct (v_inter (r_prob r)); cbn [bind fst snd] in E; injection E as <- <-; cbn [vr] in R1; injection R1 as <-; reflexivity.
    - destruct (r_incb r); cbn [bind fst snd] in E; [|discriminate]. injection E as <- <-. cbn [vr] in R1. injection R1 as <-. auto. }
  assert (HI1 : v_inter (r_prob r1) = None -> r_incb r1 = false).
  { rewrite A1. intros N. specialize (HI N). rewrite N in EQ. destruct e; try contradiction; try (rewrite EQ; exact HI). destruct EQ; congruence. }
  destruct (IH _ _ _ _ E2 R1 W2 HI1) as (r' & B1 & B2). exists r'. split; auto. rewrite B2, A1. clear B1 B2 IH E2.
  destruct (v_inter (r_prob r)); [|reflexivity].
  destruct e; try contradiction; cbn [in_callback]; try (rewrite EQ; reflexivity). destruct EQ as (-> & _). reflexivity.
Qed.
Theorem C53_current_iterate_available : forall c a s es0 o0 s0 sa es o s' o2 s2,
  start one junk c a = Ok (Some s) -> run junk s es0 = Ok (o0, s0) -> Forall within_solve es ->
  (run junk s0 (Solve _ sa Solve_Succeeded :: es) = Ok (o, s') -> step junk s' (GetCurrent _) = Ok (o2, s2) -> sr s' <> None ->
   exists p, sp s0 = Some p /\ o2 = [OAvail V (is_some (p_inter p) && in_callback false es)]) /\
  (sr s' = None -> step junk s' (GetCurrent _) = Ok (o2, s2) -> o2 = [OAvail V false]).
Proof.
  intros c a s es0 o0 s0 sa es o s' o2 s2 ST R0 FW. split.
  2:{ intros N. cbn [step]. destruct (sp s'); [|discriminate]. rewrite N. intros [=<- _]; reflexivity. }
  intros RN G NN. destruct (@start_static _ _ _ _ _ _ ST R0) as (v0 & HR & VI).
  pose proof (run_R (Solve _ sa Solve_Succeeded :: es) HR) as Q. rewrite RN in Q.
  destruct (vruns junk v0 _) as [[o' v1]|] eqn:EV; [|contradiction]. destruct Q as (<- & HR1).
  cbn [vruns] in EV. destruct (vstep junk v0 (Solve _ sa Solve_Succeeded)) as [[o3 v3]|] eqn:E3; cbn [bind fst snd] in EV; [|discriminate].
  destruct (vruns junk v3 es) as [[o4 v4]|] eqn:E4; cbn [bind fst snd] in EV; [|discriminate]. injection EV as <- <-.
  destruct (vp v0) as [q|] eqn:Ep0. 2:{ cbn [vstep] in E3. rewrite Ep0 in E3. discriminate. }
  destruct (vr v0) as [r|] eqn:Er0. { cbn [vstep] in E3. rewrite Ep0, Er0 in E3. discriminate. }
  assert (NV : vr v4 <> None). { destruct HR1. destruct (sr s'), (vr v4); try contradiction; congruence. }
  destruct (@vstep_solve _ _ _ _ _ E3 Ep0 Er0) as [N3|(x3 & lam3 & zL3 & zU3 & X1 & X2 & X3 & X4 & SV & S3)].
  { exfalso. apply NV. apply (@vruns_idle es _ _ _ E4 N3 FW). }
  destruct (@vruns_incb es _ _ _ _ E4 S3 FW ltac:(auto)) as (r' & Er' & IC). cbn [r_prob r_incb] in IC.
  destruct HR as [_ _ _ RP _ _]. rewrite Ep0 in RP. destruct (sp s0) as [p|]; [|contradiction]. exists p. split; auto. simpl in RP.
  cbn [step] in G. destruct (sp s') eqn:Esp'; [|discriminate]. destruct HR1 as [_ _ _ _ RT _]. rewrite Er' in RT. destruct (sr s') as [t|]; [|contradiction].
  destruct RT as (_ & T). injection G as <- _. rewrite Esp' in T. f_equal. f_equal. rewrite (tr_ip T), IC, (pr_inter RP). reflexivity.
Qed.
End P.

(** ** examples: numbers are integers here *)
Open Scope Z_scope.
(** n = 2, m = 1; array 0: x_L, 1: x_U, 2: g_L, 3: g_U, 4: x, 5: multipliers; callbacks
    100.. *)
Definition ex_c : nat -> option (list Z) := fun k =>
  match k with 0%nat => Some [-1; -2] | 1%nat => Some [1; 2] | 2%nat => Some [0] | 3%nat => Some [9] | 4%nat => Some [7; 8; 6] | 5%nat => Some [3] | _ => None end.
Definition ex_a : cargs := CArgs 2 (Some 0%nat) (Some 1%nat) 1 (Some 2%nat) (Some 3%nat) 2 3 0
  (Some 100%nat) (Some 101%nat) (Some 102%nat) (Some 103%nat) (Some 104%nat).
Definition ex_sa : sargs := SArgs (Some 4%nat) None None (Some 5%nat) None None 77.
(** the caller overwrites the bounds and the scaling array, frees an array, the solver
    asks for everything, evaluates, calls back and delivers *)
Definition ex_es : list (event Z) :=
  [CPoke 0 [50; 50]; CAlloc 6 [4; 4]; SetScaling 2 (Some 6%nat) None; CPoke 6 [5; 5]; CFree _ 6; CFree _ 1;
   SetInter _ (Some 200%nat); Solve _ ex_sa Solve_Succeeded;
   CPoke 4 [0; 0; 0]; NlpInfo _; Bounds _; Scaling _; StartingPoint _ true true true;
   EvalF [7; 8] true 1; EvalG [7; 8] false 1; EvalH [7; 8] false 1 (Some [3]) true 0;
   GetCurrent _; InterBegin [0]; GetCurrent _; InterEnd _ 1;
   Finalize [1; 2] [0; 0] [0; 0] [5] [4] 42; SolveEnd _ (Some 0); GetCurrent _].
Lemma run_check (c : nat -> option (list Z)) a es (P : list (obs Z) -> (nat -> option (list Z)) -> Prop) :
  match start 1 0 c a with
  | Ok (Some s) => match run 0 s es with Ok (o, s') => P o (cl (sm s')) | Undef => False end
  | _ => False end ->
  exists s s' o, start 1 0 c a = Ok (Some s) /\ run 0 s es = Ok (o, s') /\ P o (cl (sm s')).
Proof.
  destruct (start 1 0 c a) as [[s|]|]; try contradiction. destruct (run 0 s es) as [[o s']|] eqn:E; [|contradiction].
  intros H. exists s, s', o. auto.
Qed.
Example C36_nonvacuous : valid_args ex_a /\ arrays_hold ex_c ex_a [-1; -2] [1; 2] [0] [9] /\
 exists s s' o, start 1 0 ex_c ex_a = Ok (Some s) /\ run 0 s ex_es = Ok (o, s') /\
  (o = [OReply _ true; OReply _ true; ONlpInfo _ 2 1 2 3 false; OBounds [-1; -2] [1; 2] [0] [9]; OScaling 2 (Some [4; 4]) None;
       OStart false (Some [7; 8]) None None (Some [3]);
       OCallF (Some 100%nat) (Some [7; 8]) true 77; OReply _ true; OCallG (Some 101%nat) (Some [7; 8]) false 77; OReply _ true;
       OCallH (Some 104%nat) (Some [7; 8]) false 1 [3] true 77; OReply _ false;
       OAvail _ false; OCallInter 200 [0] 77; OAvail _ true; OReply _ true; OStatus _ 0; OAvail _ false] /\
  cl (sm s') 4%nat = Some [1; 2; 0] /\ cl (sm s') 5%nat = Some [4]).
Proof.
  split; [repeat split; discriminate|]. split; [repeat split; reflexivity|].
  apply (@run_check ex_c ex_a ex_es (fun o c => o = _ /\ c 4%nat = _ /\ c 5%nat = _)).
  vm_compute. auto.
Qed.

(** "Every problem that CreateIpoptProblem returns can be solved" is FALSE: for m = 0
    CreateIpoptProblem accepts eval_g = eval_jac_g = NULL, and for every m it accepts
    eval_h = NULL (which would be enough with hessian_approximation=limited-memory)
    and any index style, but IpoptSolve then refuses with Invalid_Problem_Definition. *)
Theorem C36_created_can_be_solved_refuted :
  exists a a', valid_args a /\ a_m a = 0 /\ a_g a = None /\ a_h a <> None /\ valid_args a' /\ a_g a' <> None /\ a_jg a' <> None /\ a_h a' = None /\
   (exists s s' o, start 1 0 ex_c a = Ok (Some s) /\ run 0 s [Solve _ ex_sa Solve_Succeeded] = Ok (o, s') /\ o = [OStatus _ Invalid_Problem_Definition]) /\
   (exists s s' o, start 1 0 ex_c a' = Ok (Some s) /\ run 0 s [Solve _ ex_sa Solve_Succeeded] = Ok (o, s') /\ o = [OStatus _ Invalid_Problem_Definition]).
Proof.
  exists (CArgs 2 (Some 0%nat) (Some 1%nat) 0 None None 0 3 0 (Some 100%nat) None (Some 102%nat) None (Some 104%nat)),
    (CArgs 2 (Some 0%nat) (Some 1%nat) 1 (Some 2%nat) (Some 3%nat) 2 0 0 (Some 100%nat) (Some 101%nat) (Some 102%nat) (Some 103%nat) None).
  split. { unfold valid_args; simpl. repeat split; try discriminate; intros; lia. }
  split; [reflexivity|]. split; [reflexivity|]. split; [discriminate|].
  split. { unfold valid_args; simpl. repeat split; try discriminate; intros; lia. }
  split; [discriminate|]. split; [discriminate|]. split; [reflexivity|].
  split; apply (@run_check ex_c _ _ (fun o _ => o = _)); vm_compute; reflexivity.
Qed.

(** Without right flags the callback is given an OLD point: the solver asks for the
    objective at (9, 9) with new_x = false after a call at (7, 8). (By C42 the solver
    does not always set the flag rightly.) *)
Theorem C53_wrong_flag_refuted : exists s s' o,
  start 1 0 ex_c ex_a = Ok (Some s) /\
  run 0 s [Solve _ ex_sa Solve_Succeeded; EvalF [7; 8] true 1; EvalF [9; 9] false 1] = Ok (o, s') /\
  seen o = [Some [7; 8]; Some [7; 8]].
Proof. apply (@run_check ex_c ex_a _ (fun o _ => seen o = _)). vm_compute. reflexivity. Qed.
(** ... and a callback that changes its x changes what the next callback sees *)
Theorem C53_callback_writing_x_refuted : exists s s' o,
  start 1 0 ex_c ex_a = Ok (Some s) /\
  run 0 s [Solve _ ex_sa Solve_Succeeded; EvalF [7; 8] true 1; CbWritesX [0; 0]; EvalG [7; 8] false 1] = Ok (o, s') /\
  seen o = [Some [7; 8]; Some [0; 0]].
Proof. apply (@run_check ex_c ex_a _ (fun o _ => seen o = _)). vm_compute. reflexivity. Qed.
(** the order of the results when the caller passes one array for two of them: the
    last one wins (here the upper bound multipliers) *)
Example C53_one_array_twice : exists s s' o,
  start 1 0 ex_c ex_a = Ok (Some s) /\
  run 0 s [Solve _ (SArgs (Some 4%nat) None None None (Some 4%nat) (Some 4%nat) 0) Solve_Succeeded; Finalize [1; 2] [3; 4] [5; 6] [5] [4] 42] = Ok (o, s') /\
  cl (sm s') 4%nat = Some [5; 6; 6].
Proof. apply (@run_check ex_c ex_a _ (fun _ c => c 4%nat = _)). vm_compute. reflexivity. Qed.

Print Assumptions C36_create_iff_valid.
Print Assumptions C36_problem_is_a_value.
Print Assumptions C36_no_leak.
Print Assumptions C36_data_of_creation.
Print Assumptions C36_scaling_of_last_set.
Print Assumptions C36_starting_point_of_solve.
Print Assumptions C36_solve_starts_iff.
Print Assumptions C53_callbacks_see_the_point.
Print Assumptions C53_results_arrive.
Print Assumptions C53_current_iterate_available.
