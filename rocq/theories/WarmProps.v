(** Theorems C91, C92: warm start (warm_start_init_point=yes). *)
From Coq Require Import Reals List Bool Lra Lia.
From Flocq Require Import Core.
From Verif Require Import Num VecModel VecReal InitModel InitSpec InitProofs InitReal InitProps WarmModel WarmSpec WarmProofs.
Import ListNotations.
Open Scope R_scope.

Lemma Forall2_map_l {A B C} (P : B -> C -> Prop) (f : A -> B) l m : Forall2 P (map f l) m <-> Forall2 (fun a c => P (f a) c) l m.
Proof.
  split.
  - revert m. induction l as [|a l IH]; intros m H; inversion H; subst; constructor; auto.
  - induction 1; cbn; constructor; auto.
Qed.
Lemma Forall2_and {A B} (P Q : A -> B -> Prop) l m : Forall2 P l m -> Forall2 Q l m -> Forall2 (fun a b => P a b /\ Q a b) l m.
Proof. induction 1; intros K; inversion K; subst; constructor; auto. Qed.
Lemma Forall2_imp {A B} (P Q : A -> B -> Prop) l m : (forall a b, P a b -> Q a b) -> Forall2 P l m -> Forall2 Q l m.
Proof. intros I. induction 1; constructor; auto. Qed.
Lemma Forall2_via {A} (P Q : A -> A -> Prop) l1 l2 l3 :
  Forall2 P l1 l2 -> Forall2 Q l2 l3 -> Forall2 (fun a c => exists b, P a b /\ Q b c) l1 l3.
Proof. intros H. revert l3. induction H; intros l3 K; inversion K; subst; constructor; eauto. Qed.
Lemma Forall2_forall {A B} (P : A -> B -> Prop) (Q : B -> Prop) (R : A -> Prop) l m :
  (forall a b, P a b -> R a -> Q b) -> Forall2 P l m -> Forall R l -> Forall Q m.
Proof. intros I. induction 1; intros K; inversion K; subst; constructor; eauto. Qed.

Lemma room_same bf tiny w w' : same_bounds w w' -> room bf tiny (position w) -> room bf tiny (position w').
Proof. intros [A B] H l u; cbn. rewrite A, B. apply (H l u). Qed.
(** a block after both steps *)
Lemma block_inside lg eps dmin tiny move mu o bp bf ws : 0 < tiny -> 0 < bp -> 0 < bf <= 1 / 2 ->
  Forall (fun w => room bf tiny (position w)) ws ->
  Forall2 (fun w w' => exists w1, same_bounds w w1 /\ moved_inside bp bf tiny (o_mpush o) w1 w') ws
    (push lg tiny o bp bf (target lg eps dmin move mu o ws)).
Proof.
  intros Ht Hp Hf H. eapply Forall2_via; [apply (target_bounds lg eps dmin move mu o)|]. apply push_inside; try assumption.
  eapply Forall2_forall; [|apply (target_bounds lg eps dmin move mu o ws)|exact H]. intros a b S. now apply room_same.
Qed.
Lemma target_off lg eps dmin move mu o ws : o_target o <= 0 -> target lg eps dmin move mu o ws = ws.
Proof. intros H. unfold target. destruct (Rlt_dec 0 (o_target o)); [lra|reflexivity]. Qed.
Lemma block_plain lg eps dmin tiny move mu o bp bf ws : o_target o <= 0 -> 0 < tiny -> 0 < bp -> 0 < bf <= 1 / 2 ->
  Forall (fun w => room bf tiny (position w)) ws ->
  Forall2 (moved_inside bp bf tiny (o_mpush o)) ws (push lg tiny o bp bf (target lg eps dmin move mu o ws)).
Proof. intros T Ht Hp Hf H. rewrite target_off by assumption. now apply push_inside. Qed.
Lemma block_target lg eps dmin tiny move mu o bp bf ws :
  0 < eps -> 0 < mu -> 0 < move -> 0 < o_target o -> 0 < tiny -> 0 < bp -> 0 < bf <= 1 / 2 ->
  Forall (fun w => room bf tiny (position w)) ws -> Forall (one_sided (eps * Rmin 1 mu)) ws ->
  Forall2 (fun w w' => exists w1, on_target (o_target o) w w1 /\ moved_inside bp bf tiny (o_mpush o) w1 w') ws
    (push lg tiny o bp bf (target lg eps dmin move mu o ws)).
Proof.
  intros He Hmu Hm T Ht Hp Hf H S. eapply Forall2_via; [exact (target_all lg eps dmin move mu o He Hmu Hm T ws S)|]. apply push_inside; try assumption.
  eapply Forall2_forall; [|apply (target_bounds lg eps dmin move mu o ws)|exact H]. intros a b B. now apply room_same.
Qed.

(** the block of the slacks that the warm start works with *)
Definition slack_block (o : opts) (i : input) : list wvar :=
  match i_entire i with
  | Some s => map (cap o) s
  | None => map (fun p => from_y o (fst (fst (fst p))) (snd (fst (fst p))) (snd (fst p)) (snd p)) (combine (i_d i) (map (cap_y o) (i_yd i)))
  end.

(** * C91: the first iterate of a warm start *)
(** Whatever values the user hands in: every variable ends up strictly between its bounds with the distance from them that the options
    ask for, and every bound multiplier is at least warm_start_mult_bound_push; bounds are not changed; the multipliers of the
    constraints are moved into [-warm_start_mult_init_max, warm_start_mult_init_max], if that is positive, and not changed otherwise. *)
Theorem C91_start_inside :
  forall lg eps dmin tiny move mu o i, 0 < tiny -> 0 < o_push o -> 0 < o_frac o <= 1 / 2 ->
  Forall (fun w => room (o_frac o) tiny (position w)) (i_x i) ->
  let u := warm_start lg eps dmin tiny move mu o i in
  Forall2 (fun w w' => w_lo w' = w_lo w /\ w_up w' = w_up w /\
      well_inside (o_push o) (o_frac o) tiny (w_lo w) (w_up w) (w_x w') /\
      (forall l, w_lo w = Some l -> l < w_x w') /\ (forall h, w_up w = Some h -> w_x w' < h) /\
      o_mpush o <= w_zl w' /\ o_mpush o <= w_zu w') (i_x i) (u_x u) /\
  Forall2 (limited_abs (o_mmax o)) (i_yc i) (u_yc u) /\ Forall2 (limited_abs (o_mmax o)) (i_yd i) (u_yd u).
Proof.
  intros lg eps dmin tiny move mu o i Ht Hp Hf H u.
  split; [|split; cbn; apply Forall2_map_same; apply Forall_forall; intros y _; apply limited_abs_cap].
  subst u. unfold warm_start; cbn [u_x].
  assert (H' : Forall (fun w => room (o_frac o) tiny (position w)) (map (cap o) (i_x i))) by (apply Forall_map; exact H).
  pose proof (block_inside lg eps dmin tiny move mu o (o_push o) (o_frac o) _ Ht Hp Hf H') as B.
  match type of B with Forall2 ?P (map ?f ?l) ?m => apply (proj1 (Forall2_map_l P f l m)) in B end. eapply Forall2_imp; [|exact B]. cbn beta.
  intros w w' (w1 & [A1 A2] & M1 & M2 & [M3 _] & M4 & M5 & M6 & M7). cbn [cap w_lo w_up] in A1, A2.
  rewrite A1, A2 in *. rewrite M6, M7.
  split; [assumption|]. split; [assumption|]. split; [assumption|]. split; [assumption|]. split; [assumption|]. split; apply Rmax_r.
Qed.
(** The same for the slacks of the inequalities given with GetWarmStartIterate (warm_start_entire_iterate=yes) ... *)
Theorem C91_slacks_inside_entire :
  forall lg eps dmin tiny move mu o i ss, i_entire i = Some ss -> 0 < tiny -> 0 < o_spush o -> 0 < o_sfrac o <= 1 / 2 ->
  Forall (fun w => room (o_sfrac o) tiny (position w)) ss ->
  Forall2 (fun w w' => w_lo w' = w_lo w /\ w_up w' = w_up w /\
      well_inside (o_spush o) (o_sfrac o) tiny (w_lo w) (w_up w) (w_x w') /\
      (forall l, w_lo w = Some l -> l < w_x w') /\ (forall h, w_up w = Some h -> w_x w' < h) /\
      o_mpush o <= w_zl w' /\ o_mpush o <= w_zu w') ss (u_s (warm_start lg eps dmin tiny move mu o i)).
Proof.
  intros lg eps dmin tiny move mu o i ss E Ht Hp Hf H. unfold warm_start; cbn [u_s]. rewrite E.
  assert (H' : Forall (fun w => room (o_sfrac o) tiny (position w)) (map (cap o) ss)) by (apply Forall_map; exact H).
  pose proof (block_inside lg eps dmin tiny move mu o (o_spush o) (o_sfrac o) _ Ht Hp Hf H') as B.
  match type of B with Forall2 ?P (map ?f ?l) ?m => apply (proj1 (Forall2_map_l P f l m)) in B end. eapply Forall2_imp; [|exact B]. cbn beta.
  intros w w' (w1 & [A1 A2] & M1 & M2 & [M3 _] & M4 & M5 & M6 & M7). cbn [cap w_lo w_up] in A1, A2.
  rewrite A1, A2 in *. rewrite M6, M7.
  split; [assumption|]. split; [assumption|]. split; [assumption|]. split; [assumption|]. split; [assumption|]. split; apply Rmax_r.
Qed.
(** ... and without it. *)
Theorem C91_slacks_inside :
  forall lg eps dmin tiny move mu o i, i_entire i = None -> length (i_d i) = length (i_yd i) ->
  0 < tiny -> 0 < o_spush o -> 0 < o_sfrac o <= 1 / 2 ->
  Forall (fun t => room (o_sfrac o) tiny (VAR (fst (fst t)) (snd (fst t)) (snd t))) (i_d i) ->
  Forall2 (fun t w' => w_lo w' = snd (fst t) /\ w_up w' = snd t /\
      well_inside (o_spush o) (o_sfrac o) tiny (snd (fst t)) (snd t) (w_x w') /\
      (forall l, snd (fst t) = Some l -> l < w_x w') /\ (forall h, snd t = Some h -> w_x w' < h) /\
      o_mpush o <= w_zl w' /\ o_mpush o <= w_zu w') (i_d i) (u_s (warm_start lg eps dmin tiny move mu o i)).
Proof.
  intros lg eps dmin tiny move mu o i E Len Ht Hp Hf H. unfold warm_start; cbn [u_s]. rewrite E.
  assert (Len' : length (i_d i) = length (map (cap_y o) (i_yd i))) by now rewrite map_length.
  set (yd := map (cap_y o) (i_yd i)) in *. clearbody yd.
  set (ws := map _ (combine (i_d i) yd)).
  assert (S : Forall2 (fun t w => w_lo w = snd (fst t) /\ w_up w = snd t) (i_d i) ws).
  { subst ws. clear - Len'. revert yd Len'. induction (i_d i) as [|t l IH]; intros [|y yd] L; cbn in *; try discriminate; constructor; auto. }
  assert (H' : Forall (fun w => room (o_sfrac o) tiny (position w)) ws).
  { eapply Forall2_forall; [|exact S|exact H]. intros [[d lo] up] w [A B] R l u'; cbn in *. rewrite A, B. apply (R l u'). }
  clearbody ws.
  pose proof (block_inside lg eps dmin tiny move mu o (o_spush o) (o_sfrac o) _ Ht Hp Hf H') as B.
  set (out := push _ _ _ _ _ _) in *. clearbody out. clear - S B. revert out B.
  induction S as [|t w l ws [A1 A2] S IH]; intros out B; inversion B as [|? w' ? ? K1 K2]; subst; constructor; auto.
  destruct K1 as (w1 & [B1 B2] & M1 & M2 & [M3 _] & M4 & M5 & M6 & M7). rewrite B1, B2, A1, A2 in *. rewrite M6, M7.
  split; [assumption|]. split; [assumption|]. split; [assumption|]. split; [assumption|]. split; [assumption|]. split; apply Rmax_r.
Qed.
(** Without a target for mu (the default) nothing else happens: the point is moved to the nearest one with these distances; a bound
    multiplier is limited by warm_start_mult_init_max and then raised to warm_start_mult_bound_push. *)
Theorem C91_start_nearest :
  forall lg eps dmin tiny move mu o i, o_target o <= 0 -> 0 < tiny -> 0 < o_push o -> 0 < o_frac o <= 1 / 2 ->
  Forall (fun w => room (o_frac o) tiny (position w)) (i_x i) ->
  Forall2 (fun w w' =>
      nearest (well_inside (o_push o) (o_frac o) tiny (w_lo w) (w_up w)) (w_x w) (w_x w') /\
      exists zl zu, limited (o_mmax o) (w_zl w) zl /\ limited (o_mmax o) (w_zu w) zu /\
        w_zl w' = Rmax zl (o_mpush o) /\ w_zu w' = Rmax zu (o_mpush o)) (i_x i) (u_x (warm_start lg eps dmin tiny move mu o i)).
Proof.
  intros lg eps dmin tiny move mu o i T Ht Hp Hf H. unfold warm_start; cbn [u_x].
  assert (H' : Forall (fun w => room (o_frac o) tiny (position w)) (map (cap o) (i_x i))) by (apply Forall_map; exact H).
  pose proof (block_plain lg eps dmin tiny move mu o (o_push o) (o_frac o) _ T Ht Hp Hf H') as B.
  match type of B with Forall2 ?P (map ?f ?l) ?m => apply (proj1 (Forall2_map_l P f l m)) in B end. eapply Forall2_imp; [|exact B]. cbn beta.
  intros w w' (_ & _ & M3 & _ & _ & M6 & M7). cbn [cap w_lo w_up w_x w_zl w_zu] in *.
  split; [assumption|]. exists (cap_z o (w_zl w)), (cap_z o (w_zu w)). split; [apply limited_cap|]. split; [apply limited_cap|]. now split.
Qed.
(** The same for the slacks of a full iterate. *)
Theorem C91_slacks_nearest_entire :
  forall lg eps dmin tiny move mu o i ss, i_entire i = Some ss -> o_target o <= 0 -> 0 < tiny -> 0 < o_spush o -> 0 < o_sfrac o <= 1 / 2 ->
  Forall (fun w => room (o_sfrac o) tiny (position w)) ss ->
  Forall2 (fun w w' =>
      nearest (well_inside (o_spush o) (o_sfrac o) tiny (w_lo w) (w_up w)) (w_x w) (w_x w') /\
      exists zl zu, limited (o_mmax o) (w_zl w) zl /\ limited (o_mmax o) (w_zu w) zu /\
        w_zl w' = Rmax zl (o_mpush o) /\ w_zu w' = Rmax zu (o_mpush o)) ss (u_s (warm_start lg eps dmin tiny move mu o i)).
Proof.
  intros lg eps dmin tiny move mu o i ss E T Ht Hp Hf H. unfold warm_start; cbn [u_s]. rewrite E.
  assert (H' : Forall (fun w => room (o_sfrac o) tiny (position w)) (map (cap o) ss)) by (apply Forall_map; exact H).
  pose proof (block_plain lg eps dmin tiny move mu o (o_spush o) (o_sfrac o) _ T Ht Hp Hf H') as B.
  match type of B with Forall2 ?P (map ?f ?l) ?m => apply (proj1 (Forall2_map_l P f l m)) in B end. eapply Forall2_imp; [|exact B]. cbn beta.
  intros w w' (_ & _ & M3 & _ & _ & M6 & M7). cbn [cap w_lo w_up w_x w_zl w_zu] in *.
  split; [assumption|]. exists (cap_z o (w_zl w)), (cap_z o (w_zu w)). split; [apply limited_cap|]. split; [apply limited_cap|]. now split.
Qed.
(** Without a given iterate the slacks come from the values d of the inequalities and their multipliers from y_d: v_L is the
    negative part and v_U the positive part of the (limited) y_d, at least warm_start_mult_bound_push. *)
Theorem C91_slacks_from_constraints :
  forall lg eps dmin tiny move mu o i, i_entire i = None -> length (i_d i) = length (i_yd i) ->
  o_target o <= 0 -> 0 < tiny -> 0 < o_spush o -> 0 < o_sfrac o <= 1 / 2 ->
  Forall (fun t => room (o_sfrac o) tiny (VAR (fst (fst t)) (snd (fst t)) (snd t))) (i_d i) ->
  Forall2 (fun p w' =>
      nearest (well_inside (o_spush o) (o_sfrac o) tiny (snd (fst (fst p))) (snd (fst p))) (fst (fst (fst p))) (w_x w') /\
      exists y, limited_abs (o_mmax o) (snd p) y /\ w_zl w' = Rmax (- y) (o_mpush o) /\ w_zu w' = Rmax y (o_mpush o))
    (combine (i_d i) (i_yd i)) (u_s (warm_start lg eps dmin tiny move mu o i)).
Proof.
  intros lg eps dmin tiny move mu o i E Len T Ht Hp Hf H. unfold warm_start; cbn [u_s]. rewrite E.
  assert (C : combine (i_d i) (map (cap_y o) (i_yd i)) = map (fun p => (fst p, cap_y o (snd p))) (combine (i_d i) (i_yd i))).
  { clear. generalize (i_yd i). induction (i_d i) as [|t l IH]; intros [|y ys]; cbn; try reflexivity. now rewrite IH. }
  rewrite C, map_map. cbn [fst snd].
  assert (H' : Forall (fun w => room (o_sfrac o) tiny (position w))
     (map (fun p => from_y o (fst (fst (fst p))) (snd (fst (fst p))) (snd (fst p)) (cap_y o (snd p))) (combine (i_d i) (i_yd i)))).
  { apply Forall_map. apply Forall_forall. intros [t y] I. rewrite Forall_forall in H. exact (H t (in_combine_l _ _ _ _ I)). }
  pose proof (block_plain lg eps dmin tiny move mu o (o_spush o) (o_sfrac o) _ T Ht Hp Hf H') as B.
  match type of B with Forall2 ?P (map ?f ?l) ?m => apply (proj1 (Forall2_map_l P f l m)) in B end. eapply Forall2_imp; [|exact B]. cbn beta.
  intros p w' (_ & _ & M3 & _ & _ & M6 & M7). cbn [from_y w_lo w_up w_x w_zl w_zu] in *.
  split; [assumption|]. exists (cap_y o (snd p)). split; [apply limited_abs_cap|].
  rewrite M6, M7. split; rewrite Rmax_left; auto using Rmax_r.
Qed.
Example C91_nonvacuous : Forall (fun w => room (1/100) (1/1000) (position w))
    [W 5 (Some 0) (Some 1) 1 1; W 5 None (Some 1) 0 0; W 2 (Some 3) None (-1) 0; W 0 None None 0 0] /\
  Forall (fun t => room (1/100) (1/1000) (VAR (fst (fst t)) (snd (fst t)) (snd t))) [(7, Some 1, Some 2); (0, None, Some (-1))].
Proof. split; repeat constructor; intros l u; cbn; intros [=] [=]; subst; lra. Qed.

(** The options of the warm start are documented with defaults of their own (1e-3). These are never used: an option that is not set
    takes the value of the one of the ordinary start (default 1e-2) ... *)
Theorem C91_defaults_refuted :
  forall user default, opt_push None user default (1 / 100) = (match user with Some v => v | None => 1 / 100 end) /\
  opt_slack_push None user default (1 / 100) = (match user with Some v => v | None => 1 / 100 end).
Proof. intros [v|] d; split; reflexivity. Qed.
(** ... and one that is set has that value. *)
Theorem C91_options :
  forall v bp ws0 bp0, opt_push (Some v) bp ws0 bp0 = v /\ opt_slack_push (Some v) bp ws0 bp0 = v.
Proof. split; reflexivity. Qed.

(** * C92: warm_start_target_mu *)
(** Slack and multiplier of a bound are changed to positive numbers with the product warm_start_target_mu: a variable with one
    bound and a positive distance from it is on target before it is moved away from the bounds as in C91. *)
Theorem C92_on_target :
  forall lg eps dmin tiny move mu o i, 0 < eps -> 0 < mu -> 0 < move -> 0 < o_target o ->
  0 < tiny -> 0 < o_push o -> 0 < o_frac o <= 1 / 2 ->
  Forall (one_sided (eps * Rmin 1 mu)) (i_x i) ->
  Forall2 (fun w w' => exists w0 w1,
      w_lo w0 = w_lo w /\ w_up w0 = w_up w /\ w_x w0 = w_x w /\ limited (o_mmax o) (w_zl w) (w_zl w0) /\ limited (o_mmax o) (w_zu w) (w_zu w0) /\
      on_target (o_target o) w0 w1 /\ moved_inside (o_push o) (o_frac o) tiny (o_mpush o) w1 w')
    (i_x i) (u_x (warm_start lg eps dmin tiny move mu o i)).
Proof.
  intros lg eps dmin tiny move mu o i He Hmu Hm T Ht Hp Hf H. unfold warm_start; cbn [u_x].
  assert (H1 : Forall (fun w => room (o_frac o) tiny (position w)) (map (cap o) (i_x i))).
  { apply Forall_map. eapply Forall_impl; [|exact H]. intros w ([A|A] & _) l u; cbn; rewrite A; discriminate. }
  assert (H2 : Forall (one_sided (eps * Rmin 1 mu)) (map (cap o) (i_x i))) by (apply Forall_map; exact H).
  pose proof (block_target lg eps dmin tiny move mu o (o_push o) (o_frac o) _ He Hmu Hm T Ht Hp Hf H1 H2) as B.
  match type of B with Forall2 ?P (map ?f ?l) ?m => apply (proj1 (Forall2_map_l P f l m)) in B end. eapply Forall2_imp; [|exact B]. cbn beta.
  intros w w' (w1 & A & M). exists (cap o w), w1.
  split; [reflexivity|]. split; [reflexivity|]. split; [reflexivity|]. split; [apply limited_cap|]. split; [apply limited_cap|]. now split.
Qed.
(** The same for the slacks of the inequalities given with warm_start_entire_iterate. *)
Theorem C92_on_target_slacks :
  forall lg eps dmin tiny move mu o i ss, i_entire i = Some ss -> 0 < eps -> 0 < mu -> 0 < move -> 0 < o_target o ->
  0 < tiny -> 0 < o_spush o -> 0 < o_sfrac o <= 1 / 2 ->
  Forall (one_sided (eps * Rmin 1 mu)) ss ->
  Forall2 (fun w w' => exists w0 w1,
      w_lo w0 = w_lo w /\ w_up w0 = w_up w /\ w_x w0 = w_x w /\ limited (o_mmax o) (w_zl w) (w_zl w0) /\ limited (o_mmax o) (w_zu w) (w_zu w0) /\
      on_target (o_target o) w0 w1 /\ moved_inside (o_spush o) (o_sfrac o) tiny (o_mpush o) w1 w')
    ss (u_s (warm_start lg eps dmin tiny move mu o i)).
Proof.
  intros lg eps dmin tiny move mu o i ss E He Hmu Hm T Ht Hp Hf H. unfold warm_start; cbn [u_s]. rewrite E.
  assert (H1 : Forall (fun w => room (o_sfrac o) tiny (position w)) (map (cap o) ss)).
  { apply Forall_map. eapply Forall_impl; [|exact H]. intros w ([A|A] & _) l u; cbn; rewrite A; discriminate. }
  assert (H2 : Forall (one_sided (eps * Rmin 1 mu)) (map (cap o) ss)) by (apply Forall_map; exact H).
  pose proof (block_target lg eps dmin tiny move mu o (o_spush o) (o_sfrac o) _ He Hmu Hm T Ht Hp Hf H1 H2) as B.
  match type of B with Forall2 ?P (map ?f ?l) ?m => apply (proj1 (Forall2_map_l P f l m)) in B end. eapply Forall2_imp; [|exact B]. cbn beta.
  intros w w' (w1 & A & M). exists (cap o w), w1.
  split; [reflexivity|]. split; [reflexivity|]. split; [reflexivity|]. split; [apply limited_cap|]. split; [apply limited_cap|]. now split.
Qed.
(** The product is kept if the point is already far enough inside and the multiplier large enough. *)
Theorem C92_target_kept :
  forall lg eps dmin tiny move mu o i w w', 0 < eps -> 0 < mu -> 0 < move -> 0 < o_target o ->
  0 < tiny -> 0 < o_push o -> 0 < o_frac o <= 1 / 2 ->
  one_sided (eps * Rmin 1 mu) w -> i_x i = [w] -> u_x (warm_start lg eps dmin tiny move mu o i) = [w'] ->
  (forall l, w_lo w = Some l -> l + o_push o * Rmax 1 (Rabs l) < w_x w' -> o_mpush o < w_zl w' -> (w_x w' - l) * w_zl w' = o_target o) /\
  (forall u, w_up w = Some u -> w_x w' < u - tiny - o_push o * Rmax 1 (Rabs u) -> o_mpush o < w_zu w' -> (u - w_x w') * w_zu w' = o_target o).
Proof.
  intros lg eps dmin tiny move mu o i w w' He Hmu Hm T Ht Hp Hf H Ei Eo.
  pose proof (C92_on_target lg eps dmin tiny move mu o i He Hmu Hm T Ht Hp Hf) as K. rewrite Ei, Eo in K.
  specialize (K ltac:(constructor; [exact H|constructor])). inversion K as [|? ? ? ? K1 _]; subst. clear K.
  destruct K1 as (w0 & w1 & L0 & U0 & X0 & _ & _ & (L1 & U1 & TL & TU & _) & (_ & _ & [NI N] & _ & _ & ZL & ZU)).
  rewrite L1, U1, L0, U0 in *.
  split.
  - intros l L Hx Hz. specialize (TL l L). destruct TL as (_ & _ & P & _).
    assert (U : w_up w = None) by (destruct H as ([A|A] & _); congruence). rewrite L, U in *.
    assert (EZ : w_zl w' = w_zl w1) by (rewrite ZL in *; destruct (Rle_dec (w_zl w1) (o_mpush o)); [rewrite Rmax_right in Hz by lra; lra|rewrite Rmax_left in * by lra; reflexivity]).
    assert (EX : w_x w' = w_x w1).
    { destruct (Rle_dec (l + o_push o * Rmax 1 (Rabs l)) (w_x w1)) as [Q|Q].
      - assert (WI : well_inside (o_push o) (o_frac o) tiny (Some l) None (w_x w1)) by (split; intros ? [=]; subst; unfold wanted_low, wanted_upp; lra).
        specialize (N _ WI). rewrite (Rminus_diag_eq (w_x w1) (w_x w1)) in N by reflexivity. rewrite Rabs_R0 in N.
        destruct (Req_dec (w_x w' - w_x w1) 0) as [Z|Z]; [lra|]. apply Rabs_pos_lt in Z. lra.
      - exfalso. assert (WI : well_inside (o_push o) (o_frac o) tiny (Some l) None (l + o_push o * Rmax 1 (Rabs l))) by (split; intros ? [=]; subst; unfold wanted_low, wanted_upp; lra).
        specialize (N _ WI). set (c := o_push o * Rmax 1 (Rabs l)) in *. rewrite (Rabs_right (w_x w' - w_x w1)), (Rabs_right (l + c - w_x w1)) in N by lra. lra. }
    rewrite EX, EZ. exact P.
  - intros u U Hx Hz. specialize (TU u U). destruct TU as (_ & _ & P & _).
    assert (L : w_lo w = None) by (destruct H as ([A|A] & _); congruence). rewrite L, U in *.
    assert (EZ : w_zu w' = w_zu w1) by (rewrite ZU in *; destruct (Rle_dec (w_zu w1) (o_mpush o)); [rewrite Rmax_right in Hz by lra; lra|rewrite Rmax_left in * by lra; reflexivity]).
    assert (EX : w_x w' = w_x w1).
    { destruct (Rle_dec (w_x w1) (u - tiny - o_push o * Rmax 1 (Rabs u))) as [Q|Q].
      - assert (WI : well_inside (o_push o) (o_frac o) tiny None (Some u) (w_x w1)) by (split; intros ? [=]; subst; unfold wanted_low, wanted_upp; lra).
        specialize (N _ WI). rewrite (Rminus_diag_eq (w_x w1) (w_x w1)) in N by reflexivity. rewrite Rabs_R0 in N.
        destruct (Req_dec (w_x w' - w_x w1) 0) as [Z|Z]; [lra|]. apply Rabs_pos_lt in Z. lra.
      - exfalso. assert (WI : well_inside (o_push o) (o_frac o) tiny None (Some u) (u - tiny - o_push o * Rmax 1 (Rabs u))) by (split; intros ? [=]; subst; unfold wanted_low, wanted_upp; lra).
        specialize (N _ WI). set (c := o_push o * Rmax 1 (Rabs u)) in *. rewrite (Rabs_left (w_x w' - w_x w1)), (Rabs_left (u - tiny - c - w_x w1)) in N by lra. lra. }
    rewrite EX, EZ. exact P.
Qed.
Example C92_nonvacuous : Forall (one_sided (1/1000 * Rmin 1 1)) [W 5 (Some 0) None 1 0; W (-7) None (Some (-3)) 0 1; W 2 None None 0 0].
Proof.
  rewrite Rmin_left by lra.
  constructor; [|constructor; [|constructor; [|constructor]]]; unfold one_sided; cbn [w_lo w_up w_x].
  - split; [now right|]. split; intros ? [=]; subst; lra.
  - split; [now left|]. split; intros ? [=]; subst; lra.
  - split; [now left|]. split; intros ? [=].
Qed.

(** A variable with two bounds: the upper bound is treated after the lower one, at the point moved for that; the result has the
    target for the upper bound only. *)
Lemma safe_one lg eps dmin move mu s b z : 0 < eps -> 0 < mu -> 0 < move -> eps * Rmin 1 mu <= s ->
  slacks lg eps dmin move mu [SL s b z] = [s].
Proof. intros. rewrite slacks_kept; auto. Qed.
Theorem C92_two_sided_refuted :
  forall lg dmin mpush, mpush < 1 / 100 ->
  let o := Opts (1 / 100) (1 / 100) (1 / 100) (1 / 100) mpush 0 (1 / 100) in
  let i := In_ [W (1 / 2) (Some 0) (Some 1) 1 1] (Some []) [] [] [] in
  exists w, u_x (warm_start lg (1 / 1000) dmin (1 / 1000) (1 / 1000) 1 o i) = [w] /\
  w_x w = 9 / 10 /\ w_zl w = 1 / 10 /\ w_zu w = 1 / 10 /\ (w_x w - 0) * w_zl w = 9 / 100.
Proof.
  intros lg dmin mpush Hm o i. unfold warm_start; cbn [u_x i_x i].
  assert (SQ : sqrt (1 / 100) = 1 / 10).
  { replace (1 / 100) with (1 / 10 * (1 / 10)) by lra. apply sqrt_square. lra. }
  assert (Mn : 1 / 1000 * Rmin 1 1 = 1 / 1000) by (rewrite Rmin_left by lra; lra).
  assert (AD : forall s, 1 / 1000 <= s <= 1 -> adapt (1 / 100) s 1 = (1 / 10, 1 / 10)).
  { intros s [S1 S2]. unfold adapt. destruct (Rlt_dec (10000 * 1) s); [lra|]. destruct (Rlt_dec (10000 * s) 1); [lra|]. now rewrite SQ. }
  assert (Cp : map (cap o) [W (1 / 2) (Some 0) (Some 1) 1 1] = [W (1 / 2) (Some 0) (Some 1) 1 1]).
  { cbn. unfold cap, cap_z; cbn. destruct (Rlt_dec 0 0); [lra|reflexivity]. }
  rewrite Cp.
  assert (T : target lg (1 / 1000) dmin (1 / 1000) 1 o [W (1 / 2) (Some 0) (Some 1) 1 1] = [W (9 / 10) (Some 0) (Some 1) (1 / 10) (1 / 10)]).
  { unfold target. destruct (Rlt_dec 0 (o_target o)) as [P|P]; [|cbn in P; lra]. cbv zeta.
    unfold lows, upps. cbn [flat_map w_lo w_x w_zl app].
    change (slack_low (R_ops lg) (1 / 2) 0) with (- 0 + 1 / 2). rewrite (safe_one lg (1 / 1000) dmin (1 / 1000) 1 (- 0 + 1 / 2) 0 1) by lra.
    cbn [target_low w_lo w_x w_zl w_up w_zu]. unfold process at 1 2. cbn [o_target o]. rewrite !AD by lra.
    cbn [flat_map w_lo w_x w_zl w_up w_zu app target_upp].
    set (x := 1 / 2 + 1 * (1 / 10 - (- 0 + 1 / 2))). assert (X : x = 1 / 10) by (unfold x; lra). rewrite X.
    change (slack_upp (R_ops lg) (1 / 10) 1) with (1 - 1 / 10).
    rewrite (safe_one lg (1 / 1000) dmin (1 / 1000) 1 (1 - 1 / 10) 1 1) by lra.
    unfold process. cbn [o_target o]. rewrite AD by lra. f_equal. f_equal. lra. }
  rewrite T.
  assert (Hr : Forall (fun w => room (1 / 100) (1 / 1000) (position w)) [W (9 / 10) (Some 0) (Some 1) (1 / 10) (1 / 10)]).
  { repeat constructor. intros l u; cbn. intros [= <-] [= <-]. lra. }
  pose proof (push_inside lg (1 / 1000) o (1 / 100) (1 / 100) [W (9 / 10) (Some 0) (Some 1) (1 / 10) (1 / 10)] ltac:(lra) ltac:(lra) ltac:(lra) Hr) as B.
  change (o_push o) with (1 / 100). change (o_frac o) with (1 / 100).
  inversion B as [|? w' ? ? K1 K2 E1 E2]. inversion K2; subst.
  exists w'. split; [reflexivity|].
  destruct K1 as (_ & _ & [_ N] & _ & _ & ZL & ZU). cbn [w_x w_zl w_zu w_lo w_up] in *. change (o_mpush o) with mpush in *.
  rewrite Rmax_left in ZL, ZU by lra.
  assert (WI : well_inside (1 / 100) (1 / 100) (1 / 1000) (Some 0) (Some 1) (9 / 10)).
  { split; intros b [= <-].
    - unfold wanted_low. pose proof (Rmin_r (1 / 100 * Rmax 1 (Rabs 0)) (1 / 100 * (1 - 0) - 1 / 1000)). lra.
    - unfold wanted_upp. pose proof (Rmin_r (1 / 100 * Rmax 1 (Rabs 1)) (1 / 100 * (1 - 0) - 1 / 1000)). lra. }
  specialize (N _ WI). rewrite (Rminus_diag_eq (9 / 10)) in N by reflexivity. rewrite Rabs_R0 in N.
  assert (EX : w_x w' = 9 / 10).
  { destruct (Req_dec (w_x w' - 9 / 10) 0) as [Z|Z]; [lra|]. apply Rabs_pos_lt in Z. lra. }
  split; [exact EX|]. split; [exact ZL|]. split; [exact ZU|]. rewrite EX, ZL. lra.
Qed.

Print Assumptions C91_start_inside.
Print Assumptions C91_slacks_from_constraints.
Print Assumptions C92_target_kept.
Print Assumptions C92_two_sided_refuted.
