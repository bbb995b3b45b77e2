(** Theorems C14 and C15. *)
From Coq Require Import List Bool ZArith Reals Lra Lia.
From Flocq Require Import Core BinarySingleNaN.
From Verif Require Import Num PerturbModel PerturbSpec PerturbProofs PerturbLevels PerturbDegen.
Import ListNotations.
Open Scope R_scope.

(** ** C14 *)

(** Every perturbation handed out in a history that follows the protocol is in
    range. *)
Theorem C14_perturbation_in_range :
  forall o cds cd h tr, valid_opts o -> live o cds cd h tr -> Forall (in_range o cd) tr.
Proof. intros. eapply live_range; eauto. Qed.

(** If the handler changes the perturbation on every retry, the number of
    perturbations it hands out for one matrix is bounded, whatever the answers
    of the linear solver and whatever happened for earlier matrices. *)
Theorem C14_retries_bounded :
  forall o (cds : num -> Prop) cd h tr, valid_opts o -> normal_opts o -> (forall c, cds c -> cd_pos c) ->
  live o cds cd h tr -> all_changed tr ->
  (Z.of_nat (length tr) <= 10 * (2 ^ 2098 + 1))%Z.
Proof.
  intros o cds cd h tr V N C L A.
  destruct (live_prog o V lev1 B1 (lev1_range o V) (lev1_inc o V N) cds cd h tr C L) as (_ & _ & X).
  specialize (X A). unfold B1 in *.
  destruct (proj2 (history_st o V cds) _ _ _ L) as ((_ & F & K & _) & _).
  pose proof (lev1_range o V _ F K) as Y. unfold meas, B1 in *. nia.
Qed.

(** With increase factors of at least 2 (the defaults are 100 and 8), the bound
    is 20470. *)
Theorem C14_retries_bounded_doubling :
  forall o (cds : num -> Prop) cd h tr, valid_opts o -> normal_opts o -> doubling_opts o ->
  (forall c, cds c -> cd_pos c) -> live o cds cd h tr -> all_changed tr ->
  (Z.of_nat (length tr) <= 20470)%Z.
Proof.
  intros o cds cd h tr V N D C L A.
  destruct (live_prog o V lev2 2046 (lev2_range o V) (lev2_inc o V N D) cds cd h tr C L) as (_ & _ & X).
  specialize (X A).
  destruct (proj2 (history_st o V cds) _ _ _ L) as ((_ & F & K & _) & _).
  pose proof (lev2_range o V _ F K) as Y. unfold meas in *. lia.
Qed.

(** A wrong-inertia request that succeeds always changes the perturbation: the
    Hessian perturbation grows strictly, or the constraint perturbation, zero
    until then, becomes positive (the handler starts again). *)
Theorem C14_inertia_request_progresses :
  forall o (cds : num -> Prop) cd h v tr h1 v1, valid_opts o -> normal_opts o -> (forall c, cds c -> cd_pos c) ->
  live o cds cd h (v :: tr) -> do_call o cd Inertia h v = (true, h1, v1) ->
  exists x c x1 c1, dx v = Some x /\ dc v = Some c /\ dx v1 = Some x1 /\ dc v1 = Some c1 /\
    ((key x < key x1 /\ c1 = c) \/ (key c = 0 /\ c1 = cd /\ 0 < key x1)).
Proof.
  intros o cds cd h v tr h1 v1 V N C L E. cbn [do_call] in E.
  destruct (live_prog o V lev1 B1 (lev1_range o V) (lev1_inc o V N) cds cd h _ C L) as (P & N0 & _).
  destruct (proj2 (history_st o V cds) _ _ _ L) as (S0 & r & E1). inversion E1; subst v r; clear E1.
  destruct (inertia_st o V _ _ _ _ _ _ S0 E) as [_ X]. destruct (X eq_refl) as [S1 ->].
  exists (x_curr h), (c_curr h), (x_curr h1), (c_curr h1).
  do 4 (split; [reflexivity|]). clear X.
  assert (Mp : 0 < key (o_min o)) by (destruct N as [N _]; pose proof (bpow_gt_0 radix2 (-1022)); lra).
  revert E. unfold perturb_inertia. cbv zeta.
  destruct (finalize_fields h) as (F1 & F2 & F3 & F4 & F5 & F6).
  pose proof (finalize_st o _ _ S0) as S2.
  destruct (get_deltas o (finalize_test h) (current h)) as [[r5 h5] v5] eqn:E.
  apply get_deltas_spec in E. destruct E as [(-> & G & -> & ->)|(-> & -> & ->)]; cbn [negb andb].
  - intros E; inversion E; subst. left. rewrite F4. split; auto. cbn [x_curr].
    destruct S2 as (A & F & K & _). rewrite F2 in F, K.
    assert (A' : ok0 (x_last (finalize_test h))) by auto.
    assert (N2 : key (x_curr (finalize_test h)) <> 0 -> bpow radix2 (-1022) <= key (x_curr (finalize_test h))) by (rewrite F2; exact N0).
    destruct (lev1_inc o V N (finalize_test h) A') as [Lv _]; auto; try (rewrite F2; auto).
    rewrite F2 in Lv. unfold lev1 in Lv. apply Rnot_le_lt. intros Q.
    apply Z.lt_nge in Lv. apply Lv. apply Zfloor_le. apply Rmult_le_compat_r; auto. apply bpow_ge_0.
  - destruct (is_zero_var (dc (current h))) eqn:Z0; [|discriminate]. cbn in Z0.
    apply neqb_iff in Z0. rewrite key_nzero in Z0.
    match goal with |- get_deltas o ?g _ = _ -> _ => set (h3 := g) end. intros E. right.
    split; [tauto|]. apply get_deltas_spec in E. destruct E as [(_ & G & -> & _)|(X & _)]; [|discriminate].
    cbn [c_curr x_curr]. split; [unfold h3; destruct (is_degen _); reflexivity|].
    apply next_pos; auto. unfold h3, xok. destruct (is_degen _); simpl; repeat split; auto using ok_zero; try apply ok_zero; lra.
Qed.

(** ** Default options *)
Definition def_opts : popts :=
  POpts (nofZ (10 ^ 20)) (ndiv none (nofZ (10 ^ 20))) (nofZ 100) (nofZ 8) (ndiv none (nofZ 3))
        (ndiv none (nofZ 10000)) false.
Definition def_cd : num := ndiv none (nofZ 100000000).   (* 1e-8, as for mu = 1 *)

Lemma lt_by_compute x y : nlt x y = true -> key x < key y.
Proof. intros H. apply nlt_iff in H. tauto. Qed.
Lemma normal_by_compute x m e : B2SF x = SpecFloat.S754_finite false m e -> (-1022 <=? e)%Z = true ->
  bpow radix2 (-1022) <= key x.
Proof.
  destruct x as [s|s| |s m' e' H]; cbn [B2SF]; try discriminate. intros E L. injection E as -> -> ->. apply Z.leb_le in L.
  cbn [key B2R SpecFloat.cond_Zopp]. unfold F2R. cbn [Fnum Fexp].
  apply Rle_trans with (bpow radix2 e); [apply bpow_le; auto|].
  rewrite <- (Rmult_1_l (bpow radix2 e)) at 1. apply Rmult_le_compat_r; [apply bpow_ge_0|].
  apply IZR_le. lia.
Qed.

Lemma def_valid : valid_opts def_opts.
Proof.
  constructor; cbn [o_max o_min o_first o_inc o_dec o_init def_opts];
   (split; [vm_compute; reflexivity|]).
  - rewrite <- key_nzero. apply lt_by_compute. vm_compute. reflexivity.
  - apply Rlt_le. rewrite <- key_nzero. apply lt_by_compute. vm_compute. reflexivity.
  - rewrite <- key_none. apply lt_by_compute. vm_compute. reflexivity.
  - rewrite <- key_none. apply lt_by_compute. vm_compute. reflexivity.
  - split; [rewrite <- key_nzero | rewrite <- key_none]; apply lt_by_compute; vm_compute; reflexivity.
  - rewrite <- key_nzero. apply lt_by_compute. vm_compute. reflexivity.
Qed.
Lemma def_normal : normal_opts def_opts.
Proof.
  split; cbn [o_min o_init def_opts];
  (eapply normal_by_compute; [vm_compute; reflexivity | vm_compute; reflexivity]).
Qed.
Lemma def_doubling : doubling_opts def_opts.
Proof.
  destruct (nofZ_spec 2) as [_ K]; [lia|].
  split; cbn [o_first o_inc def_opts]; apply Rlt_le; rewrite <- K; apply lt_by_compute; vm_compute; reflexivity.
Qed.
Lemma def_cd_pos : cd_pos def_cd.
Proof. split; [vm_compute; reflexivity|]. rewrite <- key_nzero. apply lt_by_compute. vm_compute. reflexivity. Qed.

Lemma triple_true (t : bool * handler * deltas) : fst (fst t) = true -> t = (true, snd (fst t), snd t).
Proof. destruct t as [[r h] v]; simpl. intros ->. reflexivity. Qed.

(** A history with three retries, all of them changing the perturbation. *)
Definition ex1 := consider_new def_opts def_cd (init_handler def_opts) uninit.
Definition ex2 := do_call def_opts def_cd Singular (snd (fst ex1)) (snd ex1).
Definition ex3 := do_call def_opts def_cd Inertia (snd (fst ex2)) (snd ex2).
Definition ex4 := do_call def_opts def_cd Inertia (snd (fst ex3)) (snd ex3).
Definition ex_ok : bool :=
  is_zero_var (dx (snd ex1)) && is_zero_var (dc (snd ex1)) && is_zero_var (dx (snd ex2))
  && negb (is_zero_var (dc (snd ex2))) && negb (is_zero_var (dx (snd ex3)))
  && match dx (snd ex3), dx (snd ex4) with Some a, Some b => nlt a b | _, _ => false end.

Example C14_live_example : exists h tr,
  live def_opts (eq def_cd) def_cd h tr /\ length tr = 4%nat /\ all_changed tr.
Proof.
  assert (B : ex_ok = true) by (vm_compute; reflexivity). unfold ex_ok in B.
  assert (R1 : fst (fst ex1) = true) by (vm_compute; reflexivity).
  assert (R2 : fst (fst ex2) = true) by (vm_compute; reflexivity).
  assert (R3 : fst (fst ex3) = true) by (vm_compute; reflexivity).
  assert (R4 : fst (fst ex4) = true) by (vm_compute; reflexivity).
  apply triple_true in R1, R2, R3, R4.
  unfold ex1 at 1 in R1. unfold ex2 at 1 in R2. unfold ex3 at 1 in R3. unfold ex4 at 1 in R4.
  repeat (apply andb_true_iff in B; let B' := fresh "B" in destruct B as [B B']).
  exists (snd (fst ex4)), [snd ex4; snd ex3; snd ex2; snd ex1]. split; [|split; [reflexivity|]].
  - clear B B0 B1 B2 B3 B4. generalize dependent ex4. generalize dependent ex3. generalize dependent ex2. generalize dependent ex1.
    intros [[r1 h1] v1] R1 [[r2 h2] v2] R2 [[r3 h3] v3] R3 [[r4 h4] v4] R4. cbn [fst snd] in *.
    eapply live_retry with (c := Inertia); [|discriminate|exact R4].
    eapply live_retry with (c := Inertia); [|discriminate|exact R3].
    eapply live_retry with (c := Singular); [|discriminate|exact R2].
    eapply live_new; [apply idle_init|reflexivity|exact R1].
  - clear R1 R2 R3 R4. generalize dependent (snd ex4). intros v4.
    generalize dependent (snd ex3). intros v3. generalize dependent (snd ex2). intros v2.
    generalize dependent (snd ex1). intros v1. intros.
    cbn [all_changed]. repeat split; intros ->.
    + destruct (dx v3) as [a|]; [|discriminate].
      match goal with H : nlt a a = true |- _ => apply lt_by_compute in H; lra end.
    + match goal with H : is_zero_var (dx v2) = true, H' : negb (is_zero_var (dx v2)) = true |- _ => rewrite H in H'; discriminate end.
    + match goal with H : is_zero_var (dc v1) = true, H' : negb (is_zero_var (dc v1)) = true |- _ => rewrite H in H'; discriminate end.
Qed.

(** *** What does not hold *)

(** The answers of the linear solver can keep the loop of SolveOnce running for
    ever, with default options: after the handler has started again, it answers
    a singular matrix with the perturbation that has just failed. *)
Lemma solve_run_app o cd k a b l :
  solve_run o cd k (a ++ b) l = solve_run o cd k b (solve_run o cd k a l).
Proof.
  revert l. induction a as [|x a IH]; intros l; simpl; auto.
  destruct (l_out l) eqn:E; auto; destruct b; simpl; rewrite ?E; auto.
Qed.

Definition stuck_b (l : loop) : bool :=
  match l_out l, status (l_h l) with
  | Running, NO_TEST => is_nyd (hess (l_h l)) || is_nyd (jac (l_h l))
  | _, _ => false
  end.

Lemma stuck_forever o cd l n : stuck_b l = true ->
  l_out (solve_run o cd true (repeat VSingular n) l) = Running.
Proof.
  revert l. induction n as [|n IH]; intros l H; simpl.
  - unfold stuck_b in H. destruct (l_out l); congruence.
  - unfold stuck_b in H. destruct (l_out l) eqn:O; try discriminate.
    destruct (status (l_h l)) eqn:T; try discriminate.
    apply IH. unfold stuck_b. unfold solve_step, perturb_singular. rewrite H, T. simpl. rewrite T. exact H.
Qed.

Theorem C14_endless_retries_refuted : exists prefix, forall n,
  l_out (solve_run def_opts def_cd true (prefix ++ repeat VSingular n)
           (solve_start def_opts def_cd false (init_handler def_opts))) = Running.
Proof.
  exists ([VSingular; VSingular] ++ repeat (VWrongInertia false false) 13).
  intros n. rewrite solve_run_app. apply stuck_forever. vm_compute. reflexivity.
Qed.

(** The same happens if jacobian_regularization_value is 0 (allowed): a
    singular matrix is "perturbed" by zero. *)
Lemma zero_cd_step o h : hess h = NotDegen -> jac h = NotDegen -> c_curr h = nzero -> d_curr h = nzero ->
  perturb_singular o nzero h (current h) = (true, set_cd h nzero, current (set_cd h nzero)).
Proof. intros A B C D. unfold perturb_singular. rewrite A, B, C. reflexivity. Qed.
Definition zx1 := consider_new def_opts nzero (init_handler def_opts) uninit.
Definition zx2 := perturb_inertia def_opts nzero (snd (fst zx1)) (snd zx1).
Lemma zx1_true : fst (fst zx1) = true.
Proof. vm_compute. reflexivity. Qed.
Theorem C14_zero_regularization_refuted : exists prefix, forall n,
  l_out (solve_run def_opts nzero true (prefix ++ repeat VSingular n)
           (solve_start def_opts nzero false (init_handler def_opts))) = Running.
Proof.
  exists [VWrongInertia false false].
  intros n. rewrite solve_run_app.
  set (l := solve_run _ _ _ [_] _).
  assert (Q : exists h v b, l = Loop h v b Running /\ hess h = NotDegen /\ jac h = NotDegen /\ c_curr h = nzero).
  { unfold l, solve_start. cbn [solve_run l_out].
    fold zx1. rewrite (triple_true _ zx1_true). cbn [l_out]. unfold solve_step. cbn [l_h l_v l_improved].
    change (perturb_inertia def_opts nzero (snd (fst zx1)) (snd zx1)) with zx2.
    assert (B : fst (fst zx2) && match hess (snd (fst zx2)), jac (snd (fst zx2)), c_curr (snd (fst zx2)) with NotDegen, NotDegen, B754_zero false => true | _, _, _ => false end = true)
      by (vm_compute; reflexivity).
    destruct zx2 as [[r2 h2] v2]. cbn [fst snd] in B.
    apply andb_true_iff in B. destruct B as [-> B].
    exists h2, v2, false. split; [reflexivity|].
    destruct (hess h2), (jac h2), (c_curr h2) as [[|]| | |]; try discriminate. auto. }
  clearbody l. destruct Q as (h & v & b & -> & A & B & C).
  revert h v A B C. induction n as [|n IH]; intros h v A B C; [reflexivity|].
  cbn [repeat solve_run l_out]. unfold solve_step. cbn [l_h l_v l_improved].
  replace (perturb_singular def_opts nzero h v) with (true, set_cd h nzero, current (set_cd h nzero)).
  - apply IH; auto.
  - unfold perturb_singular. rewrite A, B, C. reflexivity.
Qed.

(** With subnormal perturbations the increase factor may have no effect, so
    [normal_opts] cannot be dropped: here even wrong-inertia answers alone keep
    the loop running. *)
Definition tiny : num := binary_normalize 53 1024 _ _ mode_NE 1 (-1074) false.
Definition sub_opts : popts :=
  POpts (nofZ 1) tiny (ndiv (nofZ 5) (nofZ 4)) (ndiv (nofZ 5) (nofZ 4)) (ndiv none (nofZ 3)) tiny false.
Lemma eq_by_compute x y : nfin x = true -> nfin y = true -> neqb x y = true -> neqb x nzero = false -> x = y.
Proof.
  intros Fx Fy E N. apply neqb_iff in E. destruct E as (Nx & Ny & E).
  apply neqb_false in N; auto. rewrite key_nzero in N.
  assert (H : forall z, nfin z = true -> key z <> 0 -> is_finite_strict z = true).
  { intros [s|s| |s m e H]; simpl; intros; try discriminate; auto; lra. }
  apply B2R_inj; auto.
  - apply H; auto. lra.
  - rewrite <- !key_finite by auto. exact E.
Qed.
Theorem C14_subnormal_refuted : valid_opts sub_opts /\ forall n,
  l_out (solve_run sub_opts def_cd true (repeat (VWrongInertia false false) n)
           (solve_start sub_opts def_cd false (init_handler sub_opts))) = Running.
Proof.
  split.
  - constructor; cbn [o_max o_min o_first o_inc o_dec o_init sub_opts];
    (split; [vm_compute; reflexivity|]).
    + rewrite <- key_nzero. apply lt_by_compute. vm_compute. reflexivity.
    + apply Rlt_le. rewrite <- key_nzero. apply lt_by_compute. vm_compute. reflexivity.
    + rewrite <- key_none. apply lt_by_compute. vm_compute. reflexivity.
    + rewrite <- key_none. apply lt_by_compute. vm_compute. reflexivity.
    + split; [rewrite <- key_nzero | rewrite <- key_none]; apply lt_by_compute; vm_compute; reflexivity.
    + rewrite <- key_nzero. apply lt_by_compute. vm_compute. reflexivity.
  - set (good := fun h => x_last h = nzero /\ (x_curr h = nzero \/ x_curr h = tiny)).
    assert (G : forall h v, good h ->
      exists h1 v1, perturb_inertia sub_opts def_cd h v = (true, h1, v1) /\ good h1).
    { intros h v [A B]. unfold perturb_inertia. cbv zeta.
      destruct (finalize_fields h) as (F1 & F2 & _).
      assert (NX : next_x sub_opts (finalize_test h) = tiny).
      { unfold next_x. rewrite F1, F2, A. destruct B as [-> | ->].
        - reflexivity.
        - replace (neqb tiny nzero) with false by (vm_compute; reflexivity).
          replace (neqb nzero nzero) with true by (vm_compute; reflexivity).
          cbn [orb]. symmetry. apply eq_by_compute; vm_compute; reflexivity. }
      unfold get_deltas. fold (next_x sub_opts (finalize_test h)). rewrite NX.
      replace (ngt tiny (o_max sub_opts)) with false by (vm_compute; reflexivity).
      cbn [negb andb]. do 2 eexists. split; [reflexivity|]. split; cbn [x_last x_curr]; auto. rewrite F1; auto. }
    assert (Q : exists h v b, solve_start sub_opts def_cd false (init_handler sub_opts) = Loop h v b Running /\ good h).
    { unfold solve_start. 
      assert (Z : ngt nzero nzero = false) by (vm_compute; reflexivity).
      unfold consider_new, init_handler. cbn -[ngt nofZ def_cd].
      do 3 eexists. split; [reflexivity|]. 
      split; auto. }
    destruct Q as (h & v & b & -> & Gh).
    intros n. revert h v Gh. induction n as [|n IH]; intros h v Gh; [reflexivity|].
    cbn [repeat solve_run l_out]. unfold solve_step. cbn [l_h l_v l_improved].
    destruct (G h v Gh) as (h1 & v1 & -> & G1). auto.
Qed.

(** SolveOnce does not look at the result of ConsiderNewSystem: with default
    options, a second matrix can be handed to the linear solver with an
    uninitialised Hessian perturbation. *)
Theorem C14_uninitialised_perturbation_refuted :
  exists first_matrix,
    let l1 := solve_run def_opts def_cd true first_matrix (solve_start def_opts def_cd false (init_handler def_opts)) in
    l_out l1 = Failed /\
    dx (l_v (solve_start def_opts def_cd false (l_h l1))) = None /\
    l_out (solve_start def_opts def_cd false (l_h l1)) = Running.
Proof.
  exists ([VSingular; VSingular; VSingular] ++ repeat (VWrongInertia false false) 13).
  cbv zeta. split; [vm_compute; reflexivity|]. split; [|vm_compute; reflexivity].
  match goal with |- ?d = None => assert (B : match d with None => true | _ => false end = true) by (vm_compute; reflexivity);
    destruct d; [discriminate|reflexivity] end.
Qed.

(** ** C15 *)

(** A new matrix is first tried with a perturbed Hessian (or perturbed
    constraints, unless perturb_always_cd is set) only if before at least three
    times a perturbed matrix was found not singular. *)
Theorem C15_degeneracy_needs_three_observations :
  forall o cs cd r h1 v1, valid_opts o -> 0 < key (o_min o) ->
  (forall cc, In cc cs -> cd_pos (snd cc)) -> cd_pos cd ->
  let s := r_run o cs in
  do_call o cd New (r_h s) (r_last s) = (r, h1, v1) -> r = true ->
  (observe New s < 3)%nat ->
  dx v1 = Some nzero /\ ds v1 = Some nzero /\
  dc v1 = Some (if o_always o then cd else nzero) /\ dd v1 = dc v1.
Proof.
  intros o cs cd r h1 v1 V M C P s E -> O. cbn [do_call] in E.
  pose proof (J_run o V M cs C) as HJ. fold s in HJ.
  pose proof (J_new o V M s cd true h1 v1 P HJ E) as (I1 & (T1 & T2) & _).
  cbn [r_h r_obs] in I1, T1, T2.
  destruct (new_first o cd _ _ _ _ E) as [A B].
  assert (hess h1 <> Degen) by (intros Q; specialize (T1 Q); lia).
  assert (jac h1 <> Degen) by (intros Q; specialize (T2 Q); lia).
  destruct (A H), (B H0). auto.
Qed.

(** The conclusions about Hessian and Jacobian are consistent at all times. *)
Theorem C15_conclusions_consistent :
  forall o cs, valid_opts o -> 0 < key (o_min o) -> (forall cc, In cc cs -> cd_pos (snd cc)) ->
  let h := r_h (r_run o cs) in
  ~ (hess h = NYD /\ jac h = Degen) /\ ~ (jac h = NYD /\ hess h = Degen).
Proof. intros o cs V M C h. apply (J_run o V M cs C). Qed.

(** Once the same state is reached the conclusion follows: the hypothesis on
    the number of observations is sharp, and all three may come from one matrix. *)
Definition one_matrix : list (call * num) :=
  map (fun c => (c, def_cd)) [New; Singular; Inertia; Inertia].
Theorem C15_one_matrix_suffices_refuted :
  r_obs (r_run def_opts one_matrix) = 2%nat /\
  (forall r h v, let s := r_run def_opts one_matrix in
   do_call def_opts def_cd New (r_h s) (r_last s) = (r, h, v) -> r = true /\ is_zero_var (dc v) = false).
Proof.
  split; [vm_compute; reflexivity|]. cbv zeta. intros r h v.
  set (d := do_call _ _ _ _ _).
  assert (B : fst (fst d) && negb (is_zero_var (dc (snd d))) = true) by (vm_compute; reflexivity).
  destruct d as [[r' h'] v']. cbn [fst snd] in B. intros E. injection E as -> -> ->.
  apply andb_true_iff in B. destruct B as [-> B]. apply negb_true_iff in B. auto.
Qed.

(** "Not degenerate" is not final. *)
Theorem C15_not_degenerate_is_final_refuted :
  exists cs1 cs2, jac (r_h (r_run def_opts cs1)) = NotDegen /\
    jac (r_h (r_run def_opts (cs1 ++ cs2))) = Degen.
Proof.
  exists (map (fun c => (c, def_cd)) [New; Singular; Singular; New]),
         (map (fun c => (c, def_cd)) [Singular; Singular; Inertia; Inertia]).
  split; vm_compute; reflexivity.
Qed.

(** non-vacuity of the hypotheses *)
Example C15_hypotheses_met :
  let s := r_run def_opts (map (fun c => (c, def_cd)) [New; Singular; New; Inertia; New; Singular]) in
  r_live s = true /\ r_obs s = 2%nat.
Proof. split; vm_compute; reflexivity. Qed.

Print Assumptions C14_perturbation_in_range.
Print Assumptions C14_retries_bounded.
Print Assumptions C14_retries_bounded_doubling.
Print Assumptions C14_inertia_request_progresses.
Print Assumptions C14_endless_retries_refuted.
Print Assumptions C15_degeneracy_needs_three_observations.
Print Assumptions C15_conclusions_consistent.
