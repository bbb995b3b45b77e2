(** C16-C18: why and when a solve stops. Vocabulary in ConvSpec.v. *)
From Coq Require Import List Bool ZArith Reals Lia.
From Verif Require Import Num ConvModel ConvSpec ConvProofs.
Import ListNotations.
Open Scope Z_scope.

Lemma last_rev {A} (l : list A) e rest d : e :: rest = rev l -> last l d = e.
Proof. intros E. apply (f_equal (@rev A)) in E. rewrite rev_involutive in E. rewrite <- E. simpl. apply last_last. Qed.
Lemma rest_rev {A} (l : list A) e rest : e :: rest = rev l -> removelast l = rev rest.
Proof. intros E. apply (f_equal (@rev A)) in E. rewrite rev_involutive in E. rewrite <- E. simpl. apply removelast_last. Qed.

(** What is known about the last check of a run and those before it. *)
Lemma run_facts o r e0 ps :
  let res := solve o r None e0 ps in
  let cs := checks res e0 ps in
  exists c t, final _ _ (main_body r) res ps 0 t c /\ t = rr_iter res /\ 0 <= t /\
  (usual o r -> t <= o_max_iter o) /\
  Z.of_nat (rr_own res) <= t /\ (rr_own res <= length ps)%nat /\
  (forall e, In e (removelast cs) -> ~ converged_point o e /\ m_user_ok e = true) /\
  (c = CStat CONTINUE -> (forall e, In e cs -> ~ converged_point o e /\ m_user_ok e = true) /\ rr_iter res < o_max_iter o) /\
  (c = CStat CONVERGED <-> converged_point o (last cs e0) /\ m_user_ok (last cs e0) = true) /\
  (c = CStat CONVERGED_ACCEPTABLE -> 0 < o_acc_iter o /\ last_acceptable o (o_acc_iter o) cs) /\
  (m_user_ok (last cs e0) = true -> ~ converged_point o (last cs e0) -> m_novars (last cs e0) = false ->
   0 < o_acc_iter o -> last_acceptable o (o_acc_iter o) cs -> c = CStat CONVERGED_ACCEPTABLE) /\
  (0 < o_acc_iter o -> ~ last_acceptable o (o_acc_iter o) (removelast cs)) /\
  (c = CStat C_MAXITER -> o_max_iter o <= rr_iter res).
Proof.
  cbv zeta. destruct (solve_sound o r e0 ps) as (t & c & seen & ((T1 & T2 & T3) & e & rest & S1 & S2 & A1 & A2 & A3 & A4 & A5 & A6 & A7 & A8 & A9 & A10) & B1 & B2 & B3 & B4).
  set (res := solve o r None e0 ps) in *. set (cs := checks res e0 ps) in *.
  assert (L : last cs e0 = e) by (apply last_rev with rest; congruence).
  assert (R : removelast cs = rev rest) by (apply rest_rev with e; congruence).
  assert (R2 : cs = rev seen) by (rewrite B2, rev_involutive; reflexivity).
  assert (G : forall x, conv_b o x = false -> ~ converged_point o x).
  { intros x H Q. apply conv_b_iff in Q. congruence. }
  exists c, t. split; [exact B3|]. split; [exact T1|]. split; [lia|]. split; [intros u; specialize (T3 u); lia|].
  split; [rewrite S1 in B4; simpl in B4; lia|]. split; [exact B1|].
  assert (FR : Forall (fun e => conv_b o e = false /\ m_user_ok e = true) rest).
  { destruct c as [[]|]; try (apply A1; discriminate). destruct (A2 eq_refl) as [Q _]. rewrite S1 in Q. inversion Q; auto. }
  split.
  { intros x Hx. rewrite R, <- in_rev in Hx. rewrite Forall_forall in FR. destruct (FR x Hx). auto. }
  split.
  { intros Ec. destruct (A2 Ec) as (Q1 & Q2 & _). split; auto. intros x Hx. rewrite R2, <- in_rev in Hx.
    rewrite Forall_forall in Q1. destruct (Q1 x Hx). auto. }
  split.
  { rewrite L, <- conv_b_iff. split; [exact A3|]. intros [Q1 Q2]. auto. }
  split.
  { intros Ec. destruct (A4 Ec) as (Q1 & Q2 & _). split; auto. unfold last_acceptable. rewrite R2. apply trail_prefix. lia. }
  split.
  { rewrite L. intros U N V P Q. apply A8; auto.
    - destruct (conv_b o e) eqn:Cb; auto. apply conv_b_iff in Cb. tauto.
    - unfold last_acceptable in Q. rewrite R2 in Q. apply trail_prefix_inv in Q; lia. }
  split; [|exact A6].
  intros P Q. destruct (A10 P) as [_ Q2]. unfold last_acceptable in Q. rewrite R in Q. apply trail_prefix_inv in Q; lia.
Qed.

(** A status SUCCESS is never produced by an exception handler *)
Lemma success_by_check sq en : optimize_return sq en = Some SUCCESS -> en = ByCheck CONVERGED.
Proof. destruct en as [[]|[]|]; simpl; try discriminate; auto. destruct sq; discriminate. Qed.

(** C16. A solve that reports success ended in a convergence check whose
    measures met all tolerances, and no earlier check did. *)
Theorem C16_success_means_converged :
  forall o r init e0 ps square, let res := solve o r init e0 ps in
  optimize_return square (rr_end res) = Some SUCCESS ->
  let cs := checks res e0 ps in
  converged_point o (last cs e0) /\ m_user_ok (last cs e0) = true /\
  forall e, In e (removelast cs) -> ~ converged_point o e.
Proof.
  intros o r [x|] e0 ps square res H cs.
  { apply success_by_check in H. discriminate H. }
  apply success_by_check in H.
  destruct (run_facts o r e0 ps) as (c & t & F & _ & _ & _ & _ & _ & A1 & _ & A2 & _). fold res in F, A1, A2. fold cs in A1, A2.
  unfold final in F. rewrite H in F. destruct F as (-> & _). destruct A2 as [A2 _]. destruct (A2 eq_refl).
  repeat split; auto. intros e He. apply A1; auto.
Qed.

(** Conversely a check that meets the tolerances ends the solve with success,
    unless the user asked to stop; so no run ever passes such a point. *)
Theorem C16_converged_means_success :
  forall o r e0 ps e, let res := solve o r None e0 ps in
  In e (checks res e0 ps) -> converged_point o e -> m_user_ok e = true ->
  rr_end res = ByCheck CONVERGED /\ e = last (checks res e0 ps) e0.
Proof.
  intros o r e0 ps e res HI HC HU.
  destruct (run_facts o r e0 ps) as (c & t & F & _ & _ & _ & _ & _ & A1 & _ & A2 & _). fold res in F, A1, A2.
  set (cs := checks res e0 ps) in *.
  assert (NE : cs <> []) by (unfold cs, checks; discriminate).
  assert (E : e = last cs e0).
  { pose proof (app_removelast_last e0 NE) as Q. rewrite Q in HI. apply in_app_iff in HI. destruct HI as [HI|[HI|[]]]; auto.
    destruct (A1 _ HI). tauto. }
  split; auto. destruct A2 as [_ A2]. rewrite <- E in A2. specialize (A2 (conj HC HU)). subst c.
  unfold final in F. destruct (rr_end res); [|destruct F as [[F _]|[F _]]; discriminate F|destruct F; discriminate].
  destruct F as [F _]. congruence.
Qed.

(** NaN never counts as converged: success needs proper numbers. *)
Theorem C16_nan_never_converged :
  forall o e, converged_point o e -> m_novars e = false ->
  nnan (m_overall e) = false /\ nnan (m_dual e) = false /\ nnan (m_constr e) = false /\ nnan (m_compl e) = false.
Proof. intros o e [((A & _) & (B & _) & (C & _) & (D & _))|[A _]] N; [auto|congruence]. Qed.

(** C17. *)
Theorem C17_acceptable_means_consecutive :
  forall o r init e0 ps square, let res := solve o r init e0 ps in
  optimize_return square (rr_end res) = Some STOP_AT_ACCEPTABLE_POINT ->
  (0 < o_acc_iter o /\ last_acceptable o (o_acc_iter o) (checks res e0 ps))
  \/ rr_end res = ByThrow EX_ACCEPTABLE_POINT_REACHED.
Proof.
  intros o r init e0 ps square res H.
  assert (H2 : rr_end res = ByCheck CONVERGED_ACCEPTABLE \/ rr_end res = ByThrow EX_ACCEPTABLE_POINT_REACHED).
  { destruct (rr_end res) as [[]|[]|]; simpl in H; try discriminate; auto. destruct square; discriminate. }
  destruct H2 as [H2|H2]; [left|right; auto].
  destruct init as [x|]; [discriminate H2|].
  destruct (run_facts o r e0 ps) as (c & t & F & _ & _ & _ & _ & _ & _ & _ & _ & A & _). fold res in F, A.
  unfold final in F. rewrite H2 in F. destruct F as (-> & _). apply A. reflexivity.
Qed.

(** no check is passed over: as soon as the last acceptable_iter checks were
    acceptable, the solve stops *)
Theorem C17_stops_at_first_opportunity :
  forall o r e0 ps, let res := solve o r None e0 ps in let cs := checks res e0 ps in
  0 < o_acc_iter o ->
  ~ last_acceptable o (o_acc_iter o) (removelast cs) /\
  (last_acceptable o (o_acc_iter o) cs -> m_user_ok (last cs e0) = true -> m_novars (last cs e0) = false ->
   rr_end res = ByCheck CONVERGED_ACCEPTABLE \/ rr_end res = ByCheck CONVERGED).
Proof.
  intros o r e0 ps res cs P.
  destruct (run_facts o r e0 ps) as (c & t & F & _ & _ & _ & _ & _ & _ & _ & A2 & _ & A3 & A4 & _).
  fold res in F, A2, A3, A4. fold cs in A2, A3, A4. split; [auto|]. intros L U N.
  assert (G : forall st, c = CStat st -> st <> CONTINUE -> rr_end res = ByCheck st).
  { intros st -> Hs. unfold final in F. destruct (rr_end res); [|destruct F as [[F _]|[F _]]; congruence|destruct F; congruence].
    destruct F as [F _]. congruence. }
  destruct (conv_b o (last cs e0)) eqn:Cb.
  - right. apply G; [|discriminate]. apply A2. split; auto. apply conv_b_iff; auto.
  - left. apply G; [|discriminate]. apply A3; auto. intros Q. apply conv_b_iff in Q. congruence.
Qed.

Theorem C17_disabled_by_zero :
  forall o r init e0 ps, o_acc_iter o <= 0 ->
  rr_end (solve o r init e0 ps) <> ByCheck CONVERGED_ACCEPTABLE.
Proof.
  intros o r [x|] e0 ps P Q; [discriminate Q|].
  destruct (run_facts o r e0 ps) as (c & t & F & _ & _ & _ & _ & _ & _ & _ & _ & A & _).
  unfold final in F. rewrite Q in F. destruct F as (-> & _). destruct (A eq_refl). lia.
Qed.

(** C18. With the same limit for the restoration phase (the default) the number
    of iterations, counting those of restoration phases, never exceeds max_iter. *)
Theorem C18_iteration_limit :
  forall o r init e0 ps, 0 <= o_max_iter o -> o_max_iter (ro r) = o_max_iter o ->
  let res := solve o r init e0 ps in
  rr_total res <= o_max_iter o /\ Z.of_nat (rr_own res) <= rr_total res /\
  0 <= rr_iter res <= o_max_iter o.
Proof.
  intros o r [x|] e0 ps H0 H1 res; [simpl; lia|]. assert (u : usual o r) by (split; auto).
  destruct (run_facts o r e0 ps) as (c & t & F & T1 & T2 & T3 & T4 & _ & _ & A & _). fold res in F, T1, T4, A.
  specialize (T3 u).
  unfold final in F. destruct (rr_end res).
  - destruct F as (-> & _ & F). lia.
  - destruct F as [[-> F]|(-> & p & n & _ & B & F)]; [lia|].
    destruct (A eq_refl) as [_ L]. pose proof (main_body_spec o r (rr_iter res) p u L) as M. rewrite B in M. lia.
  - destruct F as (-> & [[F _]|(p & n & _ & B & F)]); [lia|].
    destruct (A eq_refl) as [_ L]. pose proof (main_body_spec o r (rr_iter res) p u L) as M. rewrite B in M. lia.
Qed.

(** The limit is reported only when it is reached. *)
Theorem C18_limit_status :
  forall o r init e0 ps, 0 <= o_max_iter o -> o_max_iter (ro r) = o_max_iter o ->
  let res := solve o r init e0 ps in
  rr_end res = ByCheck C_MAXITER -> rr_iter res = o_max_iter o /\ rr_total res = o_max_iter o.
Proof.
  intros o r [x|] e0 ps H0 H1 res Q; [discriminate Q|]. assert (u : usual o r) by (split; auto).
  destruct (run_facts o r e0 ps) as (c & t & F & T1 & T2 & T3 & T4 & _ & _ & _ & _ & _ & _ & _ & A). fold res in F, T1, A.
  specialize (T3 u). unfold final in F. rewrite Q in F. destruct F as (-> & _ & F). specialize (A eq_refl). lia.
Qed.

(** Whatever the environment answers, the solve ends within max_iter passes. *)
Theorem C18_terminates :
  forall o r init e0 ps, 0 <= o_max_iter o -> o_max_iter (ro r) = o_max_iter o ->
  long_env (o_max_iter o) ps -> rr_end (solve o r init e0 ps) <> Running.
Proof.
  intros o r [x|] e0 ps H0 H1 [L1 L2] Q; [discriminate Q|]. assert (u : usual o r) by (split; auto).
  pose proof (C18_iteration_limit o r None e0 ps H0 H1) as (C1 & C2 & C3).
  destruct (run_facts o r e0 ps) as (c & t & F & T1 & T2 & T3 & T4 & T5 & _ & A & _).
  set (res := solve o r None e0 ps) in *. unfold final in F. rewrite Q in F.
  destruct F as (-> & [[F1 F2]|(p & n & I1 & B & F)]); [lia|].
  destruct (A eq_refl) as [_ L]. pose proof (main_body_spec o r (rr_iter res) p u L) as M. rewrite B in M.
  destruct M as (M1 & M2 & re & M3 & M4). specialize (L2 _ _ I1 M3). lia.
Qed.

(** One restoration phase makes at most max_resto_iter + 1 passes. *)
Theorem C18_restoration_limit :
  forall o iter init e0 ps, 0 <= ro_max_resto o ->
  rr_total (run (resto_check o) rbody rp_check init e0 ps iter (init_rstate o)) <= ro_max_resto o + 1.
Proof.
  intros o iter init e0 ps H. pose proof (resto_run o iter init e0 ps) as (_ & A & B & _).
  destruct (Z.eq_dec (rr_total (run (resto_check o) rbody rp_check init e0 ps iter (init_rstate o))) 0); [lia|].
  destruct B; lia.
Qed.

(** ** Concrete cases *)
Definition ex_num (n d : Z) : num := ndiv (nofZ n) (nofZ d).
Definition ex_tol : num := ex_num 1 (10 ^ 8).
Definition ex_opts (maxit acc : Z) : copts :=
  COpts maxit (nofZ (10 ^ 20)) (nofZ (10 ^ 20)) ex_tol none (ex_num 1 10000) (ex_num 1 10000)
        acc (ex_num 1 (10 ^ 6)) (nofZ (10 ^ 10)) (ex_num 1 100) (ex_num 1 100) (nofZ (10 ^ 20)) (nofZ (10 ^ 20)).
Definition ex_ropts (maxit acc maxresto : Z) : ropts :=
  ROpts (ex_opts maxit acc) maxresto (ex_num 9 10) ex_tol (ex_num 1 10000).
Definition ex_meas (err : num) : measures := Measures true err err err err none none false nzero nzero.
Definition ex_core : core := Core None (Go true) (Go true) true.
Definition ex_pass (err : num) : pass := Pass ex_core (LsFree None) None (ex_meas err).
Definition bad := none.
Definition acceptable := ex_num 1 (10 ^ 7).
Definition good := ex_num 1 (10 ^ 9).
Definition ex_rm (inf : num) : rmeasures := RMeasures (ex_meas bad) false none inf true.
Definition ex_rpass (inf : num) : rpass := RPass ex_core None None (ex_rm inf).
Definition ex_resto (k : nat) : pass :=
  Pass ex_core (LsResto (RestoEnv None None (ex_rm none) (repeat (ex_rpass none) k ++ [ex_rpass nzero])
     false false false false false None false)) None (ex_meas bad).

Definition end_is (c : cstatus) (en : ending) : bool :=
  match en, c with
  | ByCheck CONVERGED, CONVERGED | ByCheck CONVERGED_ACCEPTABLE, CONVERGED_ACCEPTABLE
  | ByCheck C_MAXITER, C_MAXITER => true
  | _, _ => false
  end.

Example C16_case : end_is CONVERGED (rr_end (solve (ex_opts 3000 15) (ex_ropts 3000 15 100) None (ex_meas bad)
  [ex_pass bad; ex_pass acceptable; ex_pass good; ex_pass good])) = true.
Proof. vm_compute; reflexivity. Qed.
Example C17_case : end_is CONVERGED_ACCEPTABLE (rr_end (solve (ex_opts 3000 2) (ex_ropts 3000 2 100) None (ex_meas bad)
  [ex_pass acceptable; ex_pass bad; ex_pass acceptable; ex_pass acceptable; ex_pass good])) = true.
Proof. vm_compute; reflexivity. Qed.
(** three iterations of a restoration phase count *)
Definition ex_run := solve (ex_opts 7 15) (ex_ropts 7 15 100) None (ex_meas bad) [ex_pass bad; ex_resto 2; ex_pass bad; ex_pass bad; ex_pass bad; ex_pass bad].
Example C18_case : end_is C_MAXITER (rr_end ex_run) && (rr_total ex_run =? 7) && (rr_own ex_run =? 4)%nat = true.
Proof. vm_compute; reflexivity. Qed.

(** The restriction to equal limits is needed: with a larger resto.max_iter the
    whole solve makes more than max_iter iterations. *)
Lemma end_is_maxiter en : end_is C_MAXITER en = true -> en = ByCheck C_MAXITER.
Proof. destruct en as [[]|[]|]; intros H; try discriminate H; auto. Qed.
Lemma exceeds_by_compute o r e0 ps :
  (0 <=? o_max_iter o) && end_is C_MAXITER (rr_end (solve o r None e0 ps)) && (o_max_iter o <? rr_total (solve o r None e0 ps)) = true ->
  exists o r init e0 ps, 0 <= o_max_iter o /\ o_max_iter o < rr_total (solve o r init e0 ps) /\
    rr_end (solve o r init e0 ps) = ByCheck C_MAXITER.
Proof.
  intros B. apply andb_true_iff in B. destruct B as [B B3]. apply andb_true_iff in B. destruct B as [B1 B2].
  apply Z.ltb_lt in B3. apply Z.leb_le in B1. apply end_is_maxiter in B2. exists o, r, None, e0, ps. auto.
Qed.
Theorem C18_separate_resto_limit_refuted :
  exists o r init e0 ps, 0 <= o_max_iter o /\ o_max_iter o < rr_total (solve o r init e0 ps) /\
    rr_end (solve o r init e0 ps) = ByCheck C_MAXITER.
Proof.
  apply (exceeds_by_compute (ex_opts 5 15) (ex_ropts 3000 15 100) (ex_meas bad) [ex_pass bad; ex_resto 30]).
  vm_compute; reflexivity.
Qed.

Print Assumptions C16_success_means_converged.
Print Assumptions C16_converged_means_success.
Print Assumptions C17_acceptable_means_consecutive.
Print Assumptions C17_stops_at_first_opportunity.
Print Assumptions C18_iteration_limit.
Print Assumptions C18_terminates.
Print Assumptions C18_separate_resto_limit_refuted.
