(** Theorems C29 and C45: what a caller of OptimizeNLP/OptimizeTNLP learns about
    the end of a solve. *)
From Coq Require Import List Bool ZArith Lia.
From Verif Require Import Num ConvModel ConvSpec ConvProps StatModel StatSpec.

Lemma finish_returned v r s r' : ob_out (finish v r s) = Returned r' -> r' = r.
Proof.
  unfold finish. destruct (negb (e_skip v) && e_point v); cbn; [|congruence].
  destruct (real_solution s), (e_final v), (e_user v); cbn; congruence.
Qed.
Lemma finish_final v r s s' b : ob_final (finish v r s) = Some (s', b) -> s' = s /\ b = real_solution s.
Proof.
  unfold finish. destruct (negb (e_skip v) && e_point v); cbn; [|congruence].
  destruct (real_solution s), (e_final v), (e_user v); cbn; intros [=]; subst; auto.
Qed.
Lemma leave_internal v r : try_block v = Leave r -> r = Internal_Error.
Proof.
  unfold try_block. destruct (e_init v); [discriminate|]. destruct (optimize v) as [s|x]; [|discriminate].
  destruct s; cbn; try discriminate; destruct (e_summary v) as [[]|]; cbn; try discriminate;
    destruct (e_output v); cbn; try discriminate; destruct (e_stats v); cbn; congruence.
Qed.
Lemma handle_not_success b x s s' : handle b x s = Some (Solve_Succeeded, s') -> False.
Proof. destruct x; cbn; try discriminate. destruct b; discriminate. Qed.
Lemma optimize_success v : optimize v = Ret SUCCESS -> e_end v = EndLoop (ByCheck CONVERGED).
Proof.
  unfold optimize. destruct (e_end v) as [e|x]; [|discriminate].
  destruct (if postprocesses (e_square v) e then e_post v else None); [discriminate|].
  destruct e as [[]|[]|]; cbn; try discriminate; auto. destruct (e_square v); discriminate.
Qed.
Lemma block_none v r s : try_block v = Block None r s ->
  (optimize v = Ret s /\ exit_status s = Some r) \/ (s = INVALID_NUMBER_DETECTED /\ r = Invalid_Number_Detected).
Proof.
  unfold try_block. destruct (e_init v); [discriminate|]. destruct (optimize v) as [q|x]; [|discriminate].
  destruct q; cbn; try discriminate; destruct (e_summary v) as [[]|]; cbn; try discriminate;
    destruct (e_output v); cbn; try discriminate; try destruct (e_stats v); cbn; try discriminate; intros [=]; subst; auto.
Qed.

(** Every reason is reported with its documented code. *)
Theorem C29_documented_status :
  forall v r, solve_ended None v r -> quiet_end v -> (r = ForeignException -> e_rethrow v = false) ->
  ob_out (optimize_nlp None v) = Returned (documented r).
Proof.
  intros [i sq en po su ou st sk pt fi us re] r E (A & B & C & D & F) R; cbn in A, B, C, D, F; subst.
  inversion E as [x _ I|x _ I J|e r' _ I J K L]; subst; cbn in *; subst.
  - destruct x, sk, pt, re; try reflexivity; discriminate (R eq_refl).
  - destruct x, sk, pt, re; try reflexivity; discriminate (R eq_refl).
  - inversion K; subst; destruct sk, pt; try reflexivity; try (destruct sq; [rewrite (L eq_refl)|]; reflexivity);
      try (rewrite (L eq_refl); reflexivity).
Qed.

(** Every end of the algorithm has a reason: nothing falls through. *)
Theorem C29_every_end_has_a_reason :
  forall v, (forall e, e_end v = EndLoop e -> e <> Running /\ e <> ByCheck CONTINUE) -> e_post v = None -> exists r, solve_ended None v r.
Proof.
  intros [i sq en po su ou st sk pt fi us re] H P; cbn in *; subst.
  destruct i as [x|]; [exists (reason_of_exn x); now apply se_init|].
  destruct en as [e|x]; [|exists (reason_of_exn x); now eapply se_throw].
  assert (exists r, stopped sq e r) as [r K].
  { destruct (H e eq_refl) as [N N2]. destruct e as [[]|[]|]; try (eexists; econstructor; reflexivity); try congruence.
    destruct sq; eexists; [apply s_feas|apply s_resto]; reflexivity. }
  exists r. eapply se_loop; cbn; eauto.
Qed.

(** The loop condition cannot end the loop with CONTINUE. *)
Theorem C29_loop_never_ends_with_continue :
  forall o r init e0 ps, rr_end (solve o r init e0 ps) <> ByCheck CONTINUE.
Proof.
  intros o r init e0 ps. unfold solve, run. destruct init; cbn; [discriminate|].
  match goal with |- context [let '(_, _) := ?x in _] => destruct x as [c s] end.
  assert (G : forall S E P check body pc ps iter c (s : S) t own,
      rr_end (@loop S E P check body pc ps iter c s t own) <> ByCheck CONTINUE).
  { clear. intros S E P check body pc ps. induction ps as [|p ps IH]; intros iter c s t own; destruct c as [[]|]; cbn; try discriminate.
    destruct (body iter p); cbn; try discriminate. destruct (check (iter0 + 1)%Z (pc p) s). apply IH. }
  apply G.
Qed.

(** Conversely Solve_Succeeded is returned for no other reason, whatever fails
    after the algorithm: together with C16 the final point satisfies all
    tolerances. *)
Theorem C29_succeeded_only_if_converged :
  forall build v, ob_out (optimize_nlp build v) = Returned Solve_Succeeded ->
  build = None /\ e_end v = EndLoop (ByCheck CONVERGED) /\
  (forall s b, ob_final (optimize_nlp build v) = Some (s, b) -> s = SUCCESS /\ b = true).
Proof.
  intros build v H.
  destruct build as [x|]; [destruct x; cbn in H; try discriminate; destruct (e_rethrow v); discriminate|].
  split; [reflexivity|].
  assert (G : ob_out (call_optimize v) = Returned Solve_Succeeded /\ optimize_nlp None v = call_optimize v).
  { unfold optimize_nlp in *. destruct (ob_out (call_optimize v)) as [r|x] eqn:E; [split; congruence|].
    destruct x; cbn in H; try discriminate; destruct (e_rethrow v); discriminate. }
  destruct G as [G1 G2]. rewrite G2. clear H G2.
  unfold call_optimize in *. destruct (try_block v) as [r|[x|] r s] eqn:E.
  - apply leave_internal in E. subst r. discriminate.
  - destruct (handle (e_rethrow v) x s) as [[r' s']|] eqn:F; [|discriminate].
    apply finish_returned in G1. subst r'. apply handle_not_success in F. contradiction.
  - pose proof (finish_returned _ _ _ _ G1); subst r. apply block_none in E.
    destruct E as [E|[_ E]]; [|discriminate].
    destruct E as [X Y]. destruct s; try discriminate. split; [now apply optimize_success|].
    intros s b Q. apply finish_final in Q. destruct Q; subst; auto.
Qed.

(** End to end: a solve that returns Solve_Succeeded made its last convergence
    test at a point within all tolerances. *)
Theorem C29_succeeded_end_to_end :
  forall o ri init e0 ps v build, let res := solve o ri init e0 ps in
  e_end v = EndLoop (rr_end res) ->
  ob_out (optimize_nlp build v) = Returned Solve_Succeeded ->
  converged_point o (last (checks res e0 ps) e0).
Proof.
  intros o ri init e0 ps v build res E H. apply C29_succeeded_only_if_converged in H.
  destruct H as (_ & H & _). rewrite E in H. injection H as H.
  eapply C16_success_means_converged with (square := false). fold res. rewrite H. reflexivity.
Qed.

(** finalize_solution gets the status that describes the reason, and the vectors
    of the final point exactly for the statuses for which a point was computed;
    it is called exactly once if a current point exists and the option does not
    suppress it (an internal abort excepted). *)
Theorem C29_finalize_status :
  forall v r, solve_ended None v r -> quiet_end v -> e_rethrow v = false ->
  match ob_final (optimize_nlp None v) with
  | Some (s, real) => describes s r /\ (real = true <-> real_solution s = true) /\ e_skip v = false /\ e_point v = true
  | None => e_skip v = true \/ e_point v = false \/ r = InternalAbort
  end.
Proof.
  intros [i sq en po su ou st sk pt fi us re] r E (A & B & C & D & F) R; cbn in A, B, C, D, F, R; subst.
  inversion E as [x _ I|x _ I J|e r' _ I J K L]; subst; cbn in *; subst.
  - destruct x, sk, pt; cbn; tauto.
  - destruct x, sk, pt; cbn; tauto.
  - destruct sq; inversion K; subst; try discriminate; destruct sk, pt; try rewrite (L eq_refl); cbn; tauto.
Qed.

(** No exception leaves OptimizeNLP, except one that is not Ipopt's and that the
    user asked to have rethrown - whatever fails, and wherever. *)
Theorem C29_no_exception_escapes :
  forall build v x, ob_out (optimize_nlp build v) = Threw x -> x = A_FOREIGN /\ e_rethrow v = true.
Proof.
  intros build v x. assert (G : forall y, outer_handle (e_rethrow v) y = Threw x -> x = A_FOREIGN /\ e_rethrow v = true).
  { intros y. destruct y; cbn; try discriminate. destruct (e_rethrow v); [intros [=]; auto|discriminate]. }
  unfold optimize_nlp. destruct build as [y|]; [apply G|].
  destruct (ob_out (call_optimize v)) eqn:E; cbn; [congruence|apply G].
Qed.

(** The codes are different from each other, and the nonnegative ones are those
    of a usable end. *)
Theorem C29_codes :
  (forall a b, code a = code b -> a = b) /\
  (forall r, solved_codes (documented r) <->
     r = OptimalPoint \/ r = AcceptablePoint \/ r = SquareFeasible \/ r = LocallyInfeasible \/ r = TinySteps \/
     r = DivergingX \/ r = CallbackSaidStop).
Proof.
  split.
  - intros a b. destruct a, b; cbn; intro; try reflexivity; discriminate.
  - intros r. destruct r; unfold solved_codes; cbn; split; intro H; try lia; try tauto; repeat destruct H as [H|H]; discriminate.
Qed.

(** A code that promises a point means that nothing failed after the algorithm
    either: the summary and the statistics could be computed, and if
    finalize_solution was called with the final point, the evaluations for it
    succeeded. An evaluation error in the summary gives Invalid_Number_Detected. *)
Theorem C29_good_code_means_nothing_failed :
  forall build v r, ob_out (optimize_nlp build v) = Returned r -> solved_codes r ->
  build = None /\ e_init v = None /\ e_summary v = None /\ e_output v = None /\ e_stats v = None /\
  (forall s, ob_final (optimize_nlp build v) = Some (s, true) -> e_final v = None /\ e_user v = None).
Proof.
  intros build v r H P. assert (N : forall b x s, outer_handle b x = Returned s -> ~ solved_codes s).
  { intros b x s. destruct x; cbn; try (destruct b); intros [=] Q; subst; unfold solved_codes in Q; cbn in Q; lia. }
  destruct build as [x|]; [exfalso; exact (N _ _ _ H P)|]. unfold optimize_nlp in *.
  destruct (ob_out (call_optimize v)) as [r'|y] eqn:E; [|exfalso; eapply N; [exact H|exact P]].
  rewrite E in H. injection H as ->. clear N. split; [reflexivity|]. unfold call_optimize in *.
  destruct (try_block v) as [r'|[x|] r' s] eqn:F.
  - apply leave_internal in F. subst r'. cbn in E. injection E as <-. unfold solved_codes in P; cbn in P; lia.
  - exfalso. destruct (handle (e_rethrow v) x s) as [[r2 s2]|] eqn:G; [|discriminate]. apply finish_returned in E. subst r2.
    unfold solved_codes in P. destruct x; cbn in G; try (destruct (e_rethrow v)); try discriminate; injection G as <- <-; cbn in P; lia.
  - pose proof (finish_returned _ _ _ _ E); subst r'.
    assert (K : e_init v = None /\ e_summary v = None /\ e_output v = None /\ e_stats v = None).
    { unfold try_block in F. destruct (e_init v); [discriminate|]. destruct (optimize v) as [q|]; [|discriminate].
      split; [reflexivity|]. unfold solved_codes in P.
      destruct q; cbn in F; try discriminate; destruct (e_summary v) as [[]|]; cbn in F; try discriminate;
        destruct (e_output v); cbn in F; try discriminate; try (destruct (e_stats v); try discriminate); auto;
        injection F as <- <-; cbn in P; lia. }
    destruct K as (K0 & K1 & K2 & K3). repeat split; auto; clear - E H; unfold finish in *;
      destruct (negb (e_skip v) && e_point v); cbn in *; try discriminate;
      destruct (real_solution s), (e_final v), (e_user v); cbn in *; congruence.
Qed.
Theorem C29_bad_number_in_summary :
  forall v r, solve_ended None v r -> e_summary v = Some A_EVAL_ERROR -> e_output v = None -> e_stats v = None ->
  e_final v = None -> e_user v = None -> (exists e, e_end v = EndLoop e) -> e_init v = None ->
  solved_codes (documented r) -> ob_out (optimize_nlp None v) = Returned Invalid_Number_Detected.
Proof.
  intros [i sq en po su ou st sk pt fi us re] r E A B C D F [e X] Y P; cbn in A, B, C, D, F, X, Y; subst.
  inversion E as [x _ I|x _ I J|e2 r' _ I J K L]; subst; cbn in *; try discriminate. injection J as <-.
  inversion K; subst; unfold solved_codes in P; cbn in P; try lia; destruct sk, pt; try reflexivity;
    try (destruct sq; [rewrite (L eq_refl)|]; reflexivity); try (rewrite (L eq_refl); reflexivity).
Qed.
Example C29_ex4 :
  let v := ENV None false (EndLoop (ByCheck CONVERGED)) None (Some A_EVAL_ERROR) None None false true None None false in
  solve_ended None v OptimalPoint /\ optimize_nlp None v = OBS (Returned Invalid_Number_Detected) (Some (INVALID_NUMBER_DETECTED, false)).
Proof. repeat split. eapply se_loop; cbn; try reflexivity; constructor. Qed.

(** ReOptimizeNLP does not have OptimizeNLP's outer handler: an evaluation
    error at the final point leaves it as an exception although the same solve
    through OptimizeNLP returns a code. *)
Theorem C29_reoptimize_lets_exceptions_escape_refuted :
  exists v, e_rethrow v = false /\ e_init v = None /\ e_end v = EndLoop (ByCheck C_MAXITER) /\
    ob_out (reoptimize_nlp true v) = Threw A_EVAL_ERROR /\
    ob_out (optimize_nlp None v) = Returned Unrecoverable_Exception.
Proof.
  exists (ENV None false (EndLoop (ByCheck C_MAXITER)) None None None None false true (Some A_EVAL_ERROR) None false).
  repeat split.
Qed.

(** A failure after the algorithm changes the return code but not the status
    given to finalize_solution: the two may contradict each other. *)
Theorem C29_contradicting_statuses_refuted :
  exists v, e_init v = None /\ e_end v = EndLoop (ByCheck CONVERGED) /\ e_rethrow v = false /\
    optimize_nlp None v = OBS (Returned NonIpopt_Exception_Thrown) (Some (SUCCESS, true)).
Proof.
  exists (ENV None false (EndLoop (ByCheck CONVERGED)) None (Some A_FOREIGN) None None false true None None false).
  repeat split.
Qed.

(** Inconsistent bounds, an invalid problem, too few degrees of freedom or a
    missing library that show up while the objects are built are reported with
    the catch-all code and without the documented one. *)
Theorem C29_build_phase_codes_refuted :
  forall v, ob_out (optimize_nlp (Some A_INCONSISTENT_BOUNDS) v) = Returned Unrecoverable_Exception /\
    documented (reason_of_exn A_INCONSISTENT_BOUNDS) <> Unrecoverable_Exception /\
    ob_out (optimize_nlp (Some A_DYNAMIC_LIBRARY_FAILURE) v) = Returned Unrecoverable_Exception /\
    documented (reason_of_exn A_DYNAMIC_LIBRARY_FAILURE) <> Unrecoverable_Exception.
Proof. intros v. repeat split; discriminate. Qed.

(** C45: where the vectors of the final point are handed to the adapter it also
    computes the multipliers of the fixed variables, except after a time limit. *)
Theorem C45_multipliers_for_final_points :
  forall s, real_solution s = true ->
  (adapter_multipliers s = true <-> s <> CPUTIME_EXCEEDED /\ s <> WALLTIME_EXCEEDED).
Proof. intros s. destruct s; cbn; split; intros; try discriminate; try tauto; try (split; discriminate); destruct H0; congruence. Qed.
(** So after a time limit the point and all other multipliers are reported, but
    those of fixed variables are not computed. *)
Theorem C45_time_limit_multipliers_refuted :
  exists v s, solve_ended None v CpuLimit /\ quiet_end v /\ ob_final (optimize_nlp None v) = Some (s, true) /\
    adapter_multipliers s = false.
Proof.
  exists (ENV None false (EndLoop (ByCheck C_CPUTIME)) None None None None false true None None false), CPUTIME_EXCEEDED.
  repeat split. eapply se_loop; cbn; try reflexivity; constructor.
Qed.

(** The hypotheses are met: a converged run, a run with a bad number in the
    restoration phase, and one that fails in the initialisation. *)
Example C29_ex1 :
  let v := ENV None false (EndLoop (ByCheck CONVERGED)) None None None None false true None None false in
  solve_ended None v OptimalPoint /\ quiet_end v /\ optimize_nlp None v = OBS (Returned Solve_Succeeded) (Some (SUCCESS, true)).
Proof. repeat split. eapply se_loop; cbn; try reflexivity; constructor. Qed.
Example C29_ex2 :
  let v := ENV None true (EndLoop (ByThrow EX_RESTO_FEASIBLE)) None None None None false true None None false in
  solve_ended None v SquareFeasible /\ quiet_end v /\ optimize_nlp None v = OBS (Returned Feasible_Point_Found) (Some (FEASIBLE_POINT_FOUND, true)).
Proof. repeat split. eapply se_loop; cbn; try reflexivity. now constructor. Qed.
Example C29_ex3 :
  let v := ENV (Some A_OPTION_INVALID) true (EndLoop Running) None None None None false false None None false in
  solve_ended None v BadOption /\ quiet_end v /\ optimize_nlp None v = OBS (Returned Invalid_Option) None.
Proof. repeat split. now apply (se_init None _ A_OPTION_INVALID). Qed.

Print Assumptions C29_documented_status.
Print Assumptions C29_every_end_has_a_reason.
Print Assumptions C29_loop_never_ends_with_continue.
Print Assumptions C29_succeeded_only_if_converged.
Print Assumptions C29_succeeded_end_to_end.
Print Assumptions C29_finalize_status.
Print Assumptions C29_no_exception_escapes.
Print Assumptions C29_codes.
Print Assumptions C45_multipliers_for_final_points.
Print Assumptions C29_good_code_means_nothing_failed.
Print Assumptions C29_bad_number_in_summary.
