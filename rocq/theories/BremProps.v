(** Theorems C93, C94: bounds on variables turned into inequalities (NLPBoundsRemover). *)
From Coq Require Import Reals List Arith Bool Lra Lia.
From Verif Require Import BremModel BremSpec BremProofs.
Import ListNotations.
Open Scope R_scope.

(** * C93: the problem without bounds on variables is the same problem *)
(** It has no bounds on variables and the same feasible points. *)
Theorem C93_same_feasible_points :
  forall P x, well_formed P -> p_xlp (remove P) = [] /\ p_xup (remove P) = [] /\ (feasible (remove P) x <-> feasible P x).
Proof. intros P x W. split; [reflexivity|]. split; [reflexivity|]. now apply same_feasible. Qed.
Theorem C93_well_formed : forall P, well_formed P -> well_formed (remove P).
Proof.
  intros P W. constructor; cbn [remove p_xl p_xlp p_xu p_xup p_dl p_dlp p_du p_dup p_nd p_d p_jd]; try reflexivity.
  - rewrite !app_length, map_length, seq_length, (w_dl P W), (w_xl P W). reflexivity.
  - rewrite !app_length, map_length, seq_length, (w_du P W), (w_xu P W). reflexivity.
  - apply Forall_app. split.
    + eapply Forall_impl; [|apply (w_dlp P W)]. cbn. lia.
    + apply Forall_map, Forall_forall. intros k I. apply in_seq in I. lia.
  - apply Forall_app. split.
    + eapply Forall_impl; [|apply (w_dup P W)]. cbn. lia.
    + apply Forall_map, Forall_forall. intros k I. apply in_seq in I. lia.
  - intros x. rewrite !app_length, (w_d P W). unfold pick. rewrite !map_length. lia.
  - intros x. rewrite !app_length, (w_jd P W), !map_length. lia.
Qed.

(** The optimality conditions of the two problems are equivalent: from a solution of the problem presented with multipliers
    (yd, yl, yu) of its inequalities, the multipliers that finalize_solution hands on solve the original problem ... *)
Theorem C93_final_multipliers :
  forall P x yc yd yl yu vl wl vu wu, well_formed P ->
  length yd = p_nd P -> length yl = length (p_xlp P) -> length yu = length (p_xup P) ->
  length vl = length (p_dlp P) -> length wl = length (p_xlp P) -> length vu = length (p_dup P) -> length wu = length (p_xup P) ->
  kkt (remove P) x yc (yd ++ yl ++ yu) [] [] (vl ++ wl) (vu ++ wu) ->
  let '(yd', zl, zu) := finalize yd yl yu in kkt P x yc yd' zl zu vl vu /\ zl = wl /\ zu = wu.
Proof.
  intros P x yc yd yl yu vl wl vu wu W Ld Ll Lu L1 L2 L3 L4 [F G S (N1 & N2 & N3 & N4) (D1 & D2 & D3 & D4)]. cbn [finalize].
  apply (slack_split P W yd yl yu vl wl vu wu Ld Ll Lu L1 L2 L3 L4) in S. destruct S as (S & E1 & E2).
  apply nonneg_app in N3, N4. apply (dot_low P W) in D3; [|assumption]. apply (dot_upp P W) in D4; [|assumption].
  assert (Z : map Ropp yl = wl).
  { rewrite E1, map_map. rewrite <- (map_id wl) at 2. apply map_ext. intros; lra. }
  rewrite Z. subst yu. split; [|now split].
  constructor; try tauto; [now apply (same_feasible P W)|].
  intros j J. specialize (G j J). rewrite (grad_split P W yd yl wu vl wl vu wu) in G by assumption. cbn [remove p_grad p_jc p_xlp p_xup place] in G.
  rewrite E1, place_opp in G. lra.
Qed.
(** ... and every solution of the original problem is one of the problem presented, with -z_L and z_U as multipliers. *)
Theorem C93_solutions_kept :
  forall P x yc yd zl zu vl vu, well_formed P ->
  length yd = p_nd P -> length zl = length (p_xlp P) -> length zu = length (p_xup P) -> length vl = length (p_dlp P) -> length vu = length (p_dup P) ->
  kkt P x yc yd zl zu vl vu -> kkt (remove P) x yc (yd ++ map Ropp zl ++ zu) [] [] (vl ++ zl) (vu ++ zu).
Proof.
  intros P x yc yd zl zu vl vu W Ld Ll Lu L1 L3 [F G S (N1 & N2 & N3 & N4) (D1 & D2 & D3 & D4)].
  assert (Ll' : length (map Ropp zl) = length (p_xlp P)) by now rewrite map_length.
  constructor.
  - now apply (same_feasible P W).
  - intros j J. specialize (G j J). rewrite (grad_split P W yd (map Ropp zl) zu vl zl vu zu) by assumption. cbn [remove p_grad p_jc p_xlp p_xup place]. rewrite place_opp. lra.
  - apply (slack_split P W yd (map Ropp zl) zu vl zl vu zu); auto.
  - split; [constructor|]. split; [constructor|]. split; now apply nonneg_app.
  - split; [apply dot_nil|]. split; [apply dot_nil|]. split; [apply (dot_low P W)|apply (dot_upp P W)]; auto.
Qed.
(** one variable x >= 1, objective x, with the inequality 2 x <= 6: solution x = 1, z_L = 1 *)
Definition ex_problem : problem :=
  Problem 1 [0%nat] [1] [] [] 1 [] [] [0%nat] [6] (fun _ _ => 1) (fun _ => []) (fun _ => []) (fun x => [2 * nth 0 x 0]) (fun _ => [fun _ => 2]).
Example C93_nonvacuous : well_formed ex_problem /\ kkt ex_problem [1] [] [0] [1] [] [] [0].
Proof.
  split; [constructor; cbn; auto|].
  constructor; cbn.
  - split; [constructor|]. cbn.
    repeat split; intros [|[|k]] i b; cbn; intros [=]; intros [=]; subst; cbn; lra.
  - intros [|j] H; [cbn; lra|lia].
  - intros [|k] H; [cbn; lra|lia].
  - repeat split; repeat constructor; lra.
  - repeat split; intros [|[|k]] i b z; cbn; intros [=]; intros [=]; intros [=]; subst; cbn; lra.
Qed.

(** Starting multipliers: what the user gives as z_L is taken as multiplier of the inequality x >= x_L without the change of sign
    that finalize_solution makes: a run that stops at once hands back -z_L, and with the multipliers of a solution the problem
    presented does not start at its solution. *)
Theorem C93_warm_start_sign_refuted :
  ~ (forall yd zl zu, let '(a, b, c) := start yd zl zu in finalize a b c = (yd, zl, zu)) /\
  exists P x yc yd zl zu vl vu, well_formed P /\ kkt P x yc yd zl zu vl vu /\
    let '(a, b, c) := start yd zl zu in forall wl wu, length wl = length (p_xlp P) -> length wu = length (p_xup P) ->
      ~ kkt (remove P) x yc (a ++ b ++ c) [] [] (vl ++ wl) (vu ++ wu).
Proof.
  split.
  - intros H. specialize (H [] [1] []). cbn in H. injection H. lra.
  - exists ex_problem, [1], [], [0], [1], [], [], [0]. destruct C93_nonvacuous as [W K]. split; [exact W|]. split; [exact K|].
    cbn [start]. intros wl wu L1 L2 [_ G _ _ _]. specialize (G 0%nat). cbn in G. specialize (G ltac:(lia)). lra.
Qed.
(** The part that is right: y_d and z_U. *)
Theorem C93_warm_start_others :
  forall yd zl zu, let '(a, b, c) := start yd zl zu in let '(yd', zl', zu') := finalize a b c in yd' = yd /\ zu' = zu /\ zl' = map Ropp zl.
Proof. intros. cbn. auto. Qed.

(** * C94: scaling and the check of the inequalities *)
(** A bound turned into an inequality has the scaling factor of its variable; 1 if the user scales constraints only. *)
Theorem C94_scaling :
  forall P xs ds s, scaling P xs ds = Some s ->
  (forall x, xs = Some x -> length x = p_n P) -> (forall d, ds = Some d -> length d = p_nd P) ->
  (forall k, (k < p_nd P)%nat -> nth k s 0 = match ds with Some d => nth k d 0 | None => 1 end) /\
  (forall k i, nth_error (p_xlp P) k = Some i -> nth (p_nd P + k) s 0 = match xs with Some x => nth i x 0 | None => 1 end) /\
  (forall k i, nth_error (p_xup P) k = Some i -> nth (p_nd P + length (p_xlp P) + k) s 0 = match xs with Some x => nth i x 0 | None => 1 end) /\
  length s = p_nd (remove P).
Proof.
  intros P xs ds s E Hx Hd.
  set (a := match ds with Some d => d | None => ones (p_nd P) end).
  set (b := match xs with Some x => pick x (p_xlp P) | None => ones (length (p_xlp P)) end).
  set (c := match xs with Some x => pick x (p_xup P) | None => ones (length (p_xup P)) end).
  assert (ES : s = a ++ b ++ c) by (unfold scaling in E; subst a b c; destruct xs, ds; congruence). clear E. subst s.
  assert (La : length a = p_nd P) by (subst a; destruct ds; [now apply Hd|apply repeat_length]).
  assert (Lb : length b = length (p_xlp P)) by (subst b; destruct xs; [unfold pick; now rewrite map_length|apply repeat_length]).
  assert (Lc : length c = length (p_xup P)) by (subst c; destruct xs; [unfold pick; now rewrite map_length|apply repeat_length]).
  assert (R : forall n k, (k < n)%nat -> nth k (ones n) 0 = 1).
  { intros n k H. assert (I : In (nth k (ones n) 0) (ones n)) by (apply nth_In; unfold ones; now rewrite repeat_length). now apply repeat_spec in I. }
  assert (K : forall x pos k i, nth_error pos k = Some i -> nth k (pick x pos) 0 = nth i x 0).
  { intros x pos k i N. apply (map_nth_error (fun i => nth i x 0)) in N. now apply nth_error_nth with (d := 0) in N. }
  split; [|split; [|split]].
  - intros k H. rewrite app_nth1 by lia. subst a. destruct ds; [reflexivity|now apply R].
  - intros k i N. assert ((k < length (p_xlp P))%nat) by (apply nth_error_Some; congruence).
    rewrite app_nth2 by lia. rewrite app_nth1 by lia. replace (p_nd P + k - length a)%nat with k by lia.
    subst b. destruct xs; [now apply K|now apply R].
  - intros k i N. assert ((k < length (p_xup P))%nat) by (apply nth_error_Some; congruence).
    rewrite app_nth2 by lia. rewrite app_nth2 by lia. replace (p_nd P + length (p_xlp P) + k - length a - length b)%nat with k by lia.
    subst c. destruct xs; [now apply K|now apply R].
  - cbn. rewrite !app_length. lia.
Qed.
(** No scaling is reported if the user gives none. *)
Theorem C94_no_scaling : forall P xs ds, scaling P xs ds = None <-> xs = None /\ ds = None.
Proof. intros P [x|] [d|]; cbn; split; try discriminate; try (intros []; discriminate); auto. Qed.

Lemma check_vector P : mult1 (p_dup P) (p_nd P) (fun k => nth k (mult1 (p_dlp P) (p_nd P) (fun _ => 0)) 0) =
  map (fun k => INR (bounds_of P k)) (seq 0 (p_nd P)).
Proof.
  unfold mult1 at 1. apply map_ext_in. intros k I. apply in_seq in I. rewrite fold_count. unfold mult1.
  rewrite (nth_indep _ 0 ((fun k => fold_left (fun a i => if Nat.eqb i k then a + 1 else a) (p_dlp P) 0) 0%nat)) by (rewrite map_length, seq_length; lia).
  rewrite (map_nth (fun k => fold_left (fun a i => if Nat.eqb i k then a + 1 else a) (p_dlp P) 0)). rewrite seq_nth by lia.
  rewrite fold_count. cbn [Nat.add]. unfold bounds_of. rewrite plus_INR. lra.
Qed.
(** The problem is accepted exactly if every inequality has exactly one bound (or two-sided ones are allowed). *)
Theorem C94_accepted :
  forall allow P, check allow P = true <-> (allow = true \/ forall k, (k < p_nd P)%nat -> bounds_of P k = 1%nat).
Proof.
  intros allow P. unfold check. destruct allow; [rewrite andb_false_r; tauto|]. rewrite andb_true_r.
  destruct (Nat.eqb_spec (p_nd P) 0) as [Z|Z]; cbn [negb].
  - split; [right; intros; lia|reflexivity].
  - cbv zeta. rewrite check_vector. set (d := map _ _).
    assert (N : d <> []) by (unfold d; destruct (p_nd P); [congruence|discriminate]).
    assert (I : forall k, (k < p_nd P)%nat -> In (INR (bounds_of P k)) d).
    { intros k K. unfold d. apply in_map_iff. exists k. split; [reflexivity|]. apply in_seq. lia. }
    split.
    + intros H. right. intros k K. specialize (I k K).
      destruct (Req_EM_T (amax d) 1) as [A|A]; [|discriminate]. destruct (Req_EM_T (vmin d) 1) as [B|B]; [|discriminate].
      pose proof (amax_le d 0 _ I) as U. fold (amax d) in U. pose proof (vmin_in d _ I) as V.
      apply INR_eq. cbn. lra.
    + intros [H|H]; [discriminate|].
      assert (O : Forall (fun v => v = 1) d).
      { unfold d. apply Forall_map, Forall_forall. intros k K. apply in_seq in K. rewrite H by lia. reflexivity. }
      rewrite (amax_ones d N O), (vmin_ones d N O). destruct (Req_EM_T 1 1); [reflexivity|congruence].
Qed.
Example C94_nonvacuous : check false ex_problem = true /\ bounds_of ex_problem 0 = 1%nat /\ scaling ex_problem (Some [5]) None = Some [1; 5].
Proof. split; [|split; reflexivity]. apply C94_accepted. right. intros [|k] H; [reflexivity|cbn in H; lia]. Qed.

Print Assumptions C93_final_multipliers.
Print Assumptions C93_warm_start_sign_refuted.
Print Assumptions C94_accepted.
