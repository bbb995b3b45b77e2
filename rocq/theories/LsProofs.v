(** Proofs about the acceptor of the filter line search. *)
From Coq Require Import List Bool ZArith Reals Lra Lia.
From Verif Require Import Num FilterModel FilterProofs LsModel LsSpec.
Import ListNotations.
Set Implicit Arguments.

Section A.
Variables (pw : num -> num -> num) (log10 : num -> num) (o : aopts).
Notation check := (a_check pw log10 o).

Definition corners (f : filter) : list (num * num) :=
  map (fun e => (nth 0 (evals e) nzero, nth 1 (evals e) nzero)) f.
Definition wf2 (f : filter) : Prop := Forall (fun e => length (evals e) = 2%nat) f.

Definition slope (rt g : num) : num :=
  if neqb rt nzero && ngt g nzero && nlt g (nmul (nofZ 100) mach_eps) then nopp mach_eps else g.
Lemma slope_is rt g g' : is_slope rt g g' -> g' = slope rt g.
Proof.
  intros [H1 H2]. unfold slope, ngt.
  destruct (neqb rt nzero && nlt nzero g && nlt g (nmul (nofZ 100) mach_eps)) eqn:E.
  - apply andb_true_iff in E. destruct E as [E E3]. apply andb_true_iff in E. destruct E as [E1 E2].
    apply H1. repeat split; assumption.
  - apply H2. intros (E1 & E2 & E3). unfold mach_eps in E. rewrite E1, E2, E3 in E. discriminate E.
Qed.
Lemma slope_spec rt g : is_slope rt g (slope rt g).
Proof.
  unfold slope, ngt. split.
  - intros (E1 & E2 & E3). unfold mach_eps. rewrite E1, E2, E3. reflexivity.
  - intros N. destruct (neqb rt nzero && nlt nzero g && nlt g (nmul (nofZ 100) mach_eps)) eqn:E; [|reflexivity].
    exfalso. apply N. apply andb_true_iff in E. destruct E as [E E3]. apply andb_true_iff in E. destruct E as [E1 E2].
    repeat split; assumption.
Qed.

Lemma eps_not_pos : ngt (nopp mach_eps) nzero = false.
Proof. vm_compute. reflexivity. Qed.
Lemma slope_idem rt g : slope rt (slope rt g) = slope rt g.
Proof.
  unfold slope at 2 3. destruct (neqb rt nzero && ngt g nzero && nlt g (nmul (nofZ 100) mach_eps)) eqn:E.
  - unfold slope. rewrite eps_not_pos, andb_false_r. reflexivity.
  - unfold slope. rewrite E. reflexivity.
Qed.

Definition eff_tmax (s : acc) : num := if nlt (theta_max s) nzero then nmul (a_theta_max_fact o) (nmax none (ref_theta s)) else theta_max s.
Definition eff_tmin (s : acc) : num := if nlt (theta_min s) nzero then nmul (a_theta_min_fact o) (nmax none (ref_theta s)) else theta_min s.

(** two acceptor states that decide alike *)
Definition alike (s s' : acc) : Prop :=
  ref_theta s' = ref_theta s /\ ref_barr s' = ref_barr s /\ slope (ref_theta s') (ref_gbd s') = slope (ref_theta s) (ref_gbd s) /\
  eff_tmax s' = eff_tmax s /\ eff_tmin s' = eff_tmin s /\ flt s' = flt s /\
  wd_theta s' = wd_theta s /\ wd_barr s' = wd_barr s /\ wd_gbd s' = wd_gbd s /\ n_resets s' = n_resets s.
Lemma alike_refl s : alike s s. Proof. unfold alike; auto 12. Qed.
Lemma alike_trans s s' s'' : alike s s' -> alike s' s'' -> alike s s''.
Proof. unfold alike. intros (A1&A2&A3&A4&A5&A6&A7&A8&A9&A10) (B1&B2&B3&B4&B5&B6&B7&B8&B9&B10). repeat split; congruence. Qed.

Lemma eff_idem_max mn s : eff_tmax (set_thetas s mn (eff_tmax s)) = eff_tmax s.
Proof.
  unfold eff_tmax, set_thetas. cbn [theta_max ref_theta].
  destruct (nlt (theta_max s) nzero) eqn:E; [|rewrite E; reflexivity].
  destruct (nlt (nmul (a_theta_max_fact o) (nmax none (ref_theta s))) nzero); reflexivity.
Qed.
Lemma eff_idem_min mx s : eff_tmin (set_thetas s (eff_tmin s) mx) = eff_tmin s.
Proof.
  unfold eff_tmin, set_thetas. cbn [theta_min ref_theta].
  destruct (nlt (theta_min s) nzero) eqn:E; [|rewrite E; reflexivity].
  destruct (nlt (nmul (a_theta_min_fact o) (nmax none (ref_theta s))) nzero); reflexivity.
Qed.

(** *** the boolean form of the rule *)
Definition ftype_b (al : num) (s : acc) : bool :=
  ngt al nzero &&
  (nlt (slope (ref_theta s) (ref_gbd s)) nzero &&
   ngt (nmul al (pw (nopp (slope (ref_theta s) (ref_gbd s))) (a_s_phi o))) (nmul (a_delta o) (pw (ref_theta s) (a_s_theta o)))) &&
  nle (ref_theta s) (eff_tmin s).
Definition first_b (al th ba : num) (s : acc) : bool :=
  if ftype_b al s
  then compare_le (nsub ba (ref_barr s)) (nmul (nmul (a_eta o) al) (slope (ref_theta s) (ref_gbd s))) (ref_barr s)
  else acceptable_to_iterate log10 o false ba th s.
Definition rule_b (al th ba : num) (s : acc) : bool :=
  negb (ngt (eff_tmax s) nzero && ngt th (eff_tmax s)) && first_b al th ba s && acceptable_to_filter ba th s.

Lemma acceptable_to_filter_spec ba th s : wf2 (flt s) ->
  (acceptable_to_filter ba th s = true <-> outside_corners (corners (flt s)) th ba).
Proof.
  intros W. unfold acceptable_to_filter, filter_acceptable2, outside_corners, corners.
  induction (flt s) as [|e f IH].
  - cbn. split; [intros _ pb pt []|auto].
  - inversion W as [|? ? We Wf]; subst. cbn [filter_acceptable map].
    destruct e as [v it]. cbn [evals] in *. destruct v as [|v0 [|v1 [|]]]; try discriminate We.
    unfold entry_acceptable. cbn [evals coords_acceptable nth].
    destruct (nle ba v0) eqn:E0; [|destruct (nle th v1) eqn:E1].
    + rewrite (IH Wf). split.
      * intros H pb pt [E|E]; [|apply H; exact E]. inversion E; subst. left; exact E0.
      * intros H pb pt E. apply H. right; exact E.
    + rewrite (IH Wf). split.
      * intros H pb pt [E|E]; [|apply H; exact E]. inversion E; subst. right; exact E1.
      * intros H pb pt E. apply H. right; exact E.
    + split; [discriminate|]. intros H. destruct (H v0 v1 (or_introl eq_refl)); congruence.
Qed.

Lemma sufficient_spec th ba s : acceptable_to_iterate log10 o false ba th s = true <->
  ~ increases_too_fast log10 o (ref_barr s) ba /\ sufficient_decrease o (ref_theta s) (ref_barr s) th ba.
Proof.
  unfold acceptable_to_iterate, increases_too_fast, sufficient_decrease, about_le, compare_le, ten_eps, mach_eps, none, ngt.
  cbn [negb andb].
  destruct (nlt (ref_barr s) ba); cbn [andb];
  [destruct (nlt (nadd (a_obj_max_inc o) _) _) eqn:E|].
  - split; [discriminate|]. intros [N _]. exfalso; apply N. split; auto.
  - rewrite orb_true_iff. split; [intros H; split; [intros [_ X]; congruence|exact H]|intros [_ H]; exact H].
  - rewrite orb_true_iff. split; [intros H; split; [intros [X _]; congruence|exact H]|intros [_ H]; exact H].
Qed.

Lemma ftype_spec al s : ftype_b al s = true <->
  (nlt nzero al = true /\ switching pw o al (ref_theta s) (slope (ref_theta s) (ref_gbd s)) /\ nle (ref_theta s) (eff_tmin s) = true).
Proof.
  unfold ftype_b, switching, ngt. rewrite !andb_true_iff. tauto.
Qed.

Lemma rule_spec al th ba s : wf2 (flt s) ->
  (rule_b al th ba s = true <->
   filter_rule pw log10 o al (ref_theta s) (ref_barr s) (slope (ref_theta s) (ref_gbd s)) (eff_tmin s) (eff_tmax s) (corners (flt s)) th ba).
Proof.
  intros W. unfold rule_b, filter_rule. rewrite !andb_true_iff, (acceptable_to_filter_spec ba th s W).
  rewrite negb_true_iff. unfold ngt.
  assert (T : nlt nzero (eff_tmax s) && nlt (eff_tmax s) th = false <-> ~ (nlt nzero (eff_tmax s) = true /\ nlt (eff_tmax s) th = true)).
  { rewrite <- andb_true_iff. destruct (nlt nzero (eff_tmax s) && nlt (eff_tmax s) th); intuition congruence. }
  rewrite T. unfold first_b. pose proof (ftype_spec al s) as F.
  destruct (ftype_b al s).
  - assert (P : nlt nzero al = true /\ switching pw o al (ref_theta s) (slope (ref_theta s) (ref_gbd s)) /\ nle (ref_theta s) (eff_tmin s) = true) by (apply F; reflexivity).
    unfold armijo_cond, about_le, compare_le, ten_eps, mach_eps. tauto.
  - assert (P : ~ (nlt nzero al = true /\ switching pw o al (ref_theta s) (slope (ref_theta s) (ref_gbd s)) /\ nle (ref_theta s) (eff_tmin s) = true)) by (intros X; apply F in X; discriminate X).
    rewrite sufficient_spec. tauto.
Qed.

(** *** one check *)
Lemma is_ftype_eq al s : exists s1, is_ftype pw o al s = (s1,
   nlt (slope (ref_theta s) (ref_gbd s)) nzero && ngt (nmul al (pw (nopp (slope (ref_theta s) (ref_gbd s))) (a_s_phi o))) (nmul (a_delta o) (pw (ref_theta s) (a_s_theta o))))
  /\ s1 = set_gbd s (slope (ref_theta s) (ref_gbd s)).
Proof.
  unfold is_ftype, slope. destruct (neqb (ref_theta s) nzero && ngt (ref_gbd s) nzero && nlt (ref_gbd s) (nmul (nofZ 100) mach_eps)).
  - eexists; split; reflexivity.
  - exists s. split; [reflexivity|]. destruct s; reflexivity.
Qed.

Lemma alike_gbd s : alike s (set_gbd s (slope (ref_theta s) (ref_gbd s))).
Proof. unfold alike; cbn; repeat split. apply slope_idem. Qed.
Lemma alike_thetas s : alike s (set_thetas s (eff_tmin s) (eff_tmax s)).
Proof. unfold alike; cbn [set_thetas ref_theta ref_barr ref_gbd flt wd_theta wd_barr wd_gbd n_resets]; repeat split; [apply eff_idem_max|apply eff_idem_min]. Qed.
Lemma alike_rej s b n : alike s (set_rej s b n).
Proof. unfold alike; cbn; repeat split. Qed.

Lemma rule_alike s s' al th ba : alike s s' -> rule_b al th ba s' = rule_b al th ba s.
Proof.
  intros (A1&A2&A3&A4&A5&A6&_). unfold rule_b, first_b, ftype_b, acceptable_to_iterate, acceptable_to_filter.
  rewrite A3, A1, A2, A4, A5, A6. reflexivity.
Qed.

(** the counters *)
Definition fires (s : acc) : bool :=
  (0 <? a_max_resets o)%Z && (n_resets s <? a_max_resets o)%Z && last_rej s && (a_reset_trigger o <=? succ_rej s + 1)%Z.

Lemma check_some al th ba s :
  snd (check al (Some th) (Some ba) s) = Some (rule_b al th ba s, rule_b al th ba s && fires s) /\
  let s' := fst (check al (Some th) (Some ba) s) in
  theta_max s' = eff_tmax s /\ theta_min s' = eff_tmin s /\
  ref_theta s' = ref_theta s /\ ref_barr s' = ref_barr s /\ slope (ref_theta s') (ref_gbd s') = slope (ref_theta s) (ref_gbd s) /\
  wd_theta s' = wd_theta s /\ wd_barr s' = wd_barr s /\ wd_gbd s' = wd_gbd s /\ n_resets s' = n_resets s /\
  flt s' = (if rule_b al th ba s && fires s then [] else flt s).
Proof.
  unfold a_check.
  set (s0 := set_thetas s _ _). assert (S0 : s0 = set_thetas s (eff_tmin s) (eff_tmax s)) by reflexivity.
  clearbody s0. rewrite <- !(rule_alike al th ba (alike_thetas s)). rewrite <- S0.
  assert (F0 : fires s = fires s0) by (rewrite S0; reflexivity). rewrite F0.
  pose proof (alike_thetas s) as AL. rewrite <- S0 in AL.
  assert (TM : theta_max s0 = eff_tmax s) by (rewrite S0; reflexivity).
  assert (TN : theta_min s0 = eff_tmin s) by (rewrite S0; reflexivity).
  destruct AL as (A1&A2&A3&A4&A5&A6&A7&A8&A9&A10).
  rewrite <- A3, <- TM, <- TN, <- A1, <- A2, <- A7, <- A8, <- A9, <- A10, <- A6.
  assert (E1 : eff_tmax s0 = theta_max s0) by congruence.
  assert (E2 : eff_tmin s0 = theta_min s0) by congruence.
  clear A1 A2 A3 A4 A5 A6 A7 A8 A9 A10 TM TN S0 F0. clear s. rename s0 into s.
  unfold rule_b. rewrite E1.
  destruct (ngt (theta_max s) nzero && ngt th (theta_max s)) eqn:Etm.
  { cbn [negb andb fst snd]. repeat split. }
  cbn [negb andb].
  assert (G : exists s1, (if ngt al nzero then is_ftype pw o al s else (s, false)) = (s1, ngt al nzero && (nlt (slope (ref_theta s) (ref_gbd s)) nzero && ngt (nmul al (pw (nopp (slope (ref_theta s) (ref_gbd s))) (a_s_phi o))) (nmul (a_delta o) (pw (ref_theta s) (a_s_theta o)))))
      /\ (s1 = set_gbd s (slope (ref_theta s) (ref_gbd s)) \/ (ngt al nzero = false /\ s1 = s))).
  { destruct (ngt al nzero) eqn:Ea.
    - destruct (is_ftype_eq al s) as (s1 & -> & ->). eexists; split; [reflexivity|left; reflexivity].
    - exists s; split; [reflexivity|right; auto]. }
  destruct G as (s1 & -> & G).
  set (ft := ngt al nzero && _).
  assert (FB : ftype_b al s = ft && nle (ref_theta s) (theta_min s)) by (unfold ftype_b; rewrite E2; reflexivity).
  assert (FI : (if ft && nle (ref_theta s1) (theta_min s1) then armijo o al ba s1 else acceptable_to_iterate log10 o false ba th s1) = first_b al th ba s).
  { unfold first_b. rewrite FB. destruct G as [->|[G ->]].
    - cbn [set_gbd ref_theta theta_min]. destruct (ft && nle (ref_theta s) (theta_min s)); reflexivity.
    - unfold ft in *. rewrite G. reflexivity. }
  rewrite FI.
  assert (FL : acceptable_to_filter ba th s1 = acceptable_to_filter ba th s) by (destruct G as [->|[_ ->]]; reflexivity).
  rewrite FL.
  assert (FR : fires s = fires s1) by (destruct G as [->|[_ ->]]; reflexivity). rewrite FR.
  assert (Q : ref_theta s1 = ref_theta s /\ ref_barr s1 = ref_barr s /\ slope (ref_theta s1) (ref_gbd s1) = slope (ref_theta s) (ref_gbd s) /\
    theta_max s1 = theta_max s /\ theta_min s1 = theta_min s /\
    wd_theta s1 = wd_theta s /\ wd_barr s1 = wd_barr s /\ wd_gbd s1 = wd_gbd s /\ n_resets s1 = n_resets s /\ flt s1 = flt s).
  { destruct G as [->|[_ ->]]; cbn; repeat split. apply slope_idem. }
  destruct Q as (Q1&Q2&Q3&Q4&Q5&Q6&Q7&Q8&Q9&Q10).
  destruct (first_b al th ba s) eqn:Ef; cbn [negb andb].
  2: { cbn [fst snd set_rej ref_theta ref_barr ref_gbd theta_max theta_min wd_theta wd_barr wd_gbd n_resets flt]. repeat split; assumption. }
  destruct (acceptable_to_filter ba th s) eqn:Ea; cbn [negb andb].
  2: { cbn [fst snd set_rej ref_theta ref_barr ref_gbd theta_max theta_min wd_theta wd_barr wd_gbd n_resets flt]. repeat split; assumption. }
  clear -Q1 Q2 Q3 Q4 Q5 Q6 Q7 Q8 Q9 Q10. unfold fires.
  destruct (0 <? a_max_resets o)%Z; cbn [andb fst snd set_rej ref_theta ref_barr ref_gbd theta_max theta_min wd_theta wd_barr wd_gbd n_resets flt];
    [|repeat split; assumption].
  destruct (n_resets s1 <? a_max_resets o)%Z; cbn [andb fst snd set_rej ref_theta ref_barr ref_gbd theta_max theta_min wd_theta wd_barr wd_gbd n_resets flt];
    [|repeat split; assumption].
  destruct (last_rej s1); cbn [andb fst snd set_rej last_rej succ_rej ref_theta ref_barr ref_gbd theta_max theta_min wd_theta wd_barr wd_gbd n_resets flt];
    [|repeat split; assumption].
  destruct (a_reset_trigger o <=? succ_rej s1 + 1)%Z; cbn [a_reset set_flt filter_clear andb fst snd set_rej last_rej succ_rej ref_theta ref_barr ref_gbd theta_max theta_min wd_theta wd_barr wd_gbd n_resets flt];
    repeat split; assumption.
Qed.

(** evaluation errors *)
Lemma check_err al th ba s : (th = None \/ ba = None) ->
  alike s (fst (check al th ba s)) /\ (snd (check al th ba s) = None \/ snd (check al th ba s) = Some (false, false)).
Proof.
  intros H. unfold a_check. destruct th as [th|]; [|cbn; split; [apply alike_refl|auto]].
  destruct ba as [ba|]; [destruct H; discriminate|].
  pose proof (alike_thetas s) as A. unfold eff_tmin, eff_tmax in A.
  destruct (ngt _ nzero && ngt th _); cbn [fst snd]; split; auto.
Qed.

Lemma check_alike al th ba s : (forall f, snd (check al th ba s) <> Some (true, f)) -> alike s (fst (check al th ba s)).
Proof.
  intros N. destruct th as [th|]; [|apply check_err; auto]. destruct ba as [ba|]; [|apply check_err; auto].
  destruct (check_some al th ba s) as (E & H). rewrite E in N. cbv zeta in H.
  destruct (rule_b al th ba s) eqn:R; [exfalso; eapply N; reflexivity|]. cbn [andb] in H.
  destruct H as (H1&H2&H3&H4&H5&H6&H7&H8&H9&H10). unfold alike. repeat split; try assumption.
  - unfold eff_tmax at 1. rewrite H1, H3. unfold eff_tmax. destruct (nlt (theta_max s) nzero) eqn:X; [|rewrite X; reflexivity].
    destruct (nlt (nmul _ _) nzero); reflexivity.
  - unfold eff_tmin at 1. rewrite H2, H3. unfold eff_tmin. destruct (nlt (theta_min s) nzero) eqn:X; [|rewrite X; reflexivity].
    destruct (nlt (nmul _ _) nzero); reflexivity.
Qed.

Lemma check_accept al th ba s f : snd (check al th ba s) = Some (true, f) ->
  exists t b, th = Some t /\ ba = Some b /\ rule_b al t b s = true.
Proof.
  intros H. destruct th as [th|]; [destruct ba as [ba|]|].
  - exists th, ba. repeat split. destruct (check_some al th ba s) as (E & _). congruence.
  - destruct (check_err al (th := Some th) (ba := None) s (or_intror eq_refl)) as (_ & [E|E]); rewrite E in H; discriminate H.
  - destruct (check_err al (th := None) (ba := ba) s (or_introl eq_refl)) as (_ & [E|E]); rewrite E in H; discriminate H.
Qed.
End A.
