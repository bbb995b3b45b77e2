(** Histories of the acceptor: the rule in terms of what was called before. *)
From Coq Require Import List Bool ZArith Reals Lra Lia.
From Verif Require Import Num FilterModel FilterProofs LsModel LsSpec LsProofs.
Import ListNotations.
Set Implicit Arguments.

Lemma nsub_fin_nan x y : nfin x = true -> nnan y = false -> nnan (nsub x y) = false.
Proof.
  intros Fx Ny. destruct (nfin y) eqn:Fy; [apply nsub_fin; auto|].
  destruct x as [sx|sx| |sx mx ex Hx]; try discriminate Fx; destruct y as [sy|sy| |sy my ey Hy]; try discriminate Fy; try discriminate Ny;
    destruct sx; destruct sy; reflexivity.
Qed.

Section H.
Variables (pw : num -> num -> num) (log10 : num -> num) (o : aopts).
Hypothesis O : aopts_wf o.
Notation check := (a_check pw log10 o).

Definition cvec (r : num * num) : list num := [fst (corner o (fst r) (snd r)); snd (corner o (fst r) (snd r))].

Lemma corner_nan rt rb : nfin rt = true -> nfin rb = true -> no_nan (cvec (rt, rb)).
Proof.
  intros Ft Fb. destruct O as (G1 & G2 & G3 & _). unfold cvec, corner. cbn [fst snd].
  destruct (nmul_fin (a_gamma_phi o) rt G1 Ft) as (N1 & _).
  assert (F1 : nfin (nofZ 1) = true) by (vm_compute; reflexivity).
  destruct (nsub_fin (nofZ 1) (a_gamma_theta o) F1 G2) as (N2 & K2).
  assert (K1 : key (nofZ 1) = 1%R) by exact key_none.
  intros x [<-|[<-|[]]].
  - apply nsub_fin_nan; auto.
  - apply nmul_fin; auto. apply key_strict_finite; auto. rewrite K2, K1.
    pose proof (fl_pos (r := (1 - key (a_gamma_theta o))%R)) as P1.
    pose proof (fl_le_key (r := (1 - key (a_gamma_theta o))%R) (nofZ 1) ltac:(vm_compute; reflexivity)) as P2. rewrite K1 in P2.
    assert (B : (1 < big)%R) by (change 1%R with (Raux.bpow Zaux.radix2 0); apply Raux.bpow_lt; lia).
    split; [apply Rlt_le_trans with 0%R; [pose proof big_pos; lra|apply P1; lra]|apply Rle_lt_trans with 1%R; [apply P2; lra|exact B]].
Qed.

Lemma limit_positive f rt : nfin f = true -> (0 < key f)%R -> nfin rt = true -> nlt (nmul f (nmax (nofZ 1) rt)) nzero = false /\ nlt nzero (nmul f (nmax (nofZ 1) rt)) = true.
Proof.
  intros Ff P Ft.
  assert (F1 : nfin (nofZ 1) = true) by (vm_compute; reflexivity).
  assert (K1 : key (nofZ 1) = 1%R) by exact key_none.
  assert (FM : nfin (nmax (nofZ 1) rt) = true) by (unfold nmax; destruct (nlt (nofZ 1) rt); auto).
  assert (KM : (1 <= key (nmax (nofZ 1) rt))%R).
  { rewrite nmax_key by (apply nfin_nnan; auto). rewrite K1. apply Rmax_l. }
  destruct (nmul_fin f (nmax (nofZ 1) rt) Ff FM) as (N & K).
  assert (Q : (key f <= key (nmul f (nmax (nofZ 1) rt)))%R).
  { rewrite K. apply fl_ge_key; [apply nfin_nnan; exact Ff|]. nra. }
  split.
  - destruct (nlt (nmul f (nmax (nofZ 1) rt)) nzero) eqn:E; [|reflexivity]. apply nlt_iff in E. rewrite key_nzero in E. lra.
  - apply nlt_iff. rewrite key_nzero. repeat split; auto. lra.
Qed.

Record inv (x : ghost) (s : acc) : Prop := {
  i_ref : fst (g_ref x) = (ref_theta s, ref_barr s);
  i_gbd : slope (ref_theta s) (snd (g_ref x)) = slope (ref_theta s) (ref_gbd s);
  i_wd : g_wd x = (wd_theta s, wd_barr s, wd_gbd s);
  i_fin : acc_fin s;
  i_max : match g_first x with None => theta_max s = nofZ (-1) | Some r => nfin r = true /\ theta_max s = tmax_for o r end;
  i_min : match g_first x with None => theta_min s = nofZ (-1) | Some r => theta_min s = tmin_for o r end;
  i_flt : finv 2 (flt s) (map cvec (g_forbid x))
}.

Definition first_of (x : ghost) : num := match g_first x with None => fst (fst (g_ref x)) | Some r => r end.

Lemma neg1 : nlt (nofZ (-1)) nzero = true.
Proof. vm_compute; reflexivity. Qed.

Lemma inv_eff x s : inv x s -> eff_tmax o s = tmax_for o (first_of x) /\ eff_tmin o s = tmin_for o (first_of x).
Proof.
  intros [R _ _ F M N _]. destruct O as (_ & _ & _ & O1 & O2 & O3 & O4). unfold eff_tmax, eff_tmin, first_of.
  destruct (g_first x) as [r|].
  - destruct M as [Fr M]. rewrite M, N. unfold tmax_for, tmin_for.
    rewrite (proj1 (limit_positive _ _ O1 O2 Fr)), (proj1 (limit_positive _ _ O3 O4 Fr)). split; reflexivity.
  - rewrite M, N, neg1, R. split; reflexivity.
Qed.

Lemma inv_augment x s it : inv x s -> inv (Ghost (g_ref x) (g_wd x) (g_first x) (g_forbid x ++ [fst (g_ref x)])) (augment o it s).
Proof.
  intros J. destruct J as [R G W F M N L].
  destruct F as (F1 & F2 & F3 & F4).
  destruct (fstep_inv 2 (flt s) (map cvec (g_forbid x)) (Add (cvec (ref_theta s, ref_barr s)) it) L) as (f' & E & L').
  { split; [reflexivity|]. apply corner_nan; auto. }
  cbn [fstep] in E. unfold augment, filter_add2.
  match goal with |- context [filter_add (flt s) ?v it] => change v with (cvec (ref_theta s, ref_barr s)) end.
  rewrite E. constructor; cbn [set_flt g_ref g_wd g_first g_forbid ref_theta ref_barr ref_gbd wd_theta wd_barr wd_gbd theta_max theta_min flt]; try assumption.
  - repeat split; assumption.
  - rewrite map_app, R. exact L'.
Qed.

Lemma inv_clear x s : inv x s -> inv (Ghost (g_ref x) (g_wd x) (g_first x) []) (a_reset s).
Proof.
  intros [R G W F M N L]. constructor; cbn [a_reset set_flt set_rej g_ref g_wd g_first g_forbid ref_theta ref_barr ref_gbd wd_theta wd_barr wd_gbd theta_max theta_min flt]; try assumption.
  destruct (fstep_inv 2 (flt s) (map cvec (g_forbid x)) Clear L Logic.I) as (f' & E & L'). cbn [fstep] in E. injection E as <-. exact L'.
Qed.

Lemma inv_check x s al th ba : inv x s ->
  inv (g_step x (ACheck al th ba) (a_out pw log10 o s (ACheck al th ba))) (fst (check al th ba s)).
Proof.
  intros J. replace (a_out pw log10 o s (ACheck al th ba)) with (OCheck (snd (check al th ba s)))
    by (unfold a_out, a_step; destruct (check al th ba s); reflexivity).
  destruct th as [th|]; [|cbn [g_step a_check fst snd]; exact J].
  assert (FF : nfin (first_of x) = true /\ nfin (fst (fst (g_ref x))) = true).
  { destruct J as [R _ _ F M _ _]. rewrite R. unfold first_of. destruct F as (F1 & _). cbn [fst]. split; [|exact F1]. destruct (g_first x); [apply M|rewrite R; exact F1]. }
  pose proof (inv_eff J) as (EM & EN).
  assert (Q : forall s', ref_theta s' = ref_theta s -> ref_barr s' = ref_barr s -> slope (ref_theta s') (ref_gbd s') = slope (ref_theta s) (ref_gbd s) ->
     wd_theta s' = wd_theta s -> wd_barr s' = wd_barr s -> wd_gbd s' = wd_gbd s -> theta_max s' = eff_tmax o s -> theta_min s' = eff_tmin o s ->
     forall H, finv 2 (flt s') (map cvec H) ->
     inv (Ghost (g_ref x) (g_wd x) (Some (first_of x)) H) s').
  { intros s' A1 A2 A3 A4 A5 A6 A7 A8 H A9. destruct J as [R G W F M N L]. destruct F as (F1&F2&F3&F4).
    constructor; cbn [g_ref g_wd g_first g_forbid].
    - rewrite A1, A2; exact R.
    - rewrite A3, <- G, A1. reflexivity.
    - rewrite W; congruence.
    - unfold acc_fin. rewrite A1, A2, A4, A5. auto.
    - split; [apply FF|]. congruence.
    - congruence.
    - exact A9. }
  assert (FE : match g_first x with Some _ as f => f | None => Some (fst (fst (g_ref x))) end = Some (first_of x)).
  { unfold first_of. destruct (g_first x); reflexivity. }
  cbn [g_step]. rewrite FE.
  destruct ba as [ba|].
  - destruct (check_some pw log10 o al th ba s) as (E & A). cbv zeta in A. destruct A as (A1 & A2 & A3 & A4 & A5 & A6 & A7 & A8 & A9 & A10).
    rewrite E. destruct (rule_b pw log10 o al th ba s && fires o s) eqn:X.
    + apply Q; try assumption.  rewrite A10. constructor; intros ? [].
    + replace (match rule_b pw log10 o al th ba s with true | _ => g_forbid x end) with (g_forbid x) by (destruct (rule_b pw log10 o al th ba s); reflexivity).
      apply Q; try assumption. rewrite A10. apply (i_flt J).
  - unfold a_check.
    replace (if nlt (theta_max s) nzero then _ else _) with (eff_tmax o s) by reflexivity.
    replace (if nlt (theta_min s) nzero then _ else _) with (eff_tmin o s) by reflexivity.
    destruct (ngt _ nzero && ngt th _); cbn [fst snd]; apply Q; try reflexivity; apply (i_flt J).
Qed.

Lemma inv_gbd x s g : slope (ref_theta s) g = slope (ref_theta s) (ref_gbd s) -> inv x s -> inv x (set_gbd s g).
Proof.
  intros E [R G W F M N L]. constructor; cbn [set_gbd ref_theta ref_barr ref_gbd wd_theta wd_barr wd_gbd theta_max theta_min flt]; try assumption.
  congruence.
Qed.

Lemma inv_step x s c : aop_wf c -> inv x s -> inv (g_step x c (a_out pw log10 o s c)) (a_next pw log10 o s c).
Proof.
  intros W J. destruct c as [| |wd t b g|al th ba|t b g| |it al ba|it].
  - unfold a_next, a_out, a_step. cbn [fst snd g_step].
    pose proof (inv_clear J) as [R G W' F M N L].
    constructor; cbn [a_initialize a_reset set_flt set_rej set_thetas g_ref g_wd g_first g_forbid ref_theta ref_barr ref_gbd wd_theta wd_barr wd_gbd theta_max theta_min flt] in *; try assumption; try reflexivity.
  - apply (inv_clear J).
  - destruct wd; unfold a_next, a_out, a_step; cbn [fst snd g_step].
    + destruct J as [R G W' F M N L]. destruct F as (F1&F2&F3&F4).
      constructor; cbn [a_init_ls set_ref g_ref g_wd g_first g_forbid ref_theta ref_barr ref_gbd wd_theta wd_barr wd_gbd theta_max theta_min flt] in *; try assumption; try reflexivity.
      * rewrite W'. reflexivity.
      * rewrite W'. reflexivity.
      * repeat split; assumption.
    + destruct W as [W1 W2]. destruct J as [R G W' F M N L]. destruct F as (F1&F2&F3&F4).
      constructor; cbn [a_init_ls set_ref g_ref g_wd g_first g_forbid ref_theta ref_barr ref_gbd wd_theta wd_barr wd_gbd theta_max theta_min flt] in *; try assumption; try reflexivity.
      repeat split; assumption.
  - unfold a_next. cbn [a_step]. rewrite (surjective_pairing (check al th ba s)). cbn [fst]. apply inv_check; auto.
  - destruct W as [W1 W2]. unfold a_next, a_out, a_step; cbn [fst snd g_step].
    destruct J as [R G W' F M N L]. destruct F as (F1&F2&F3&F4).
    constructor; cbn [a_start_wd set_wd g_ref g_wd g_first g_forbid ref_theta ref_barr ref_gbd wd_theta wd_barr wd_gbd theta_max theta_min flt] in *; try assumption; try reflexivity.
    repeat split; assumption.
  - unfold a_next, a_out, a_step; cbn [fst snd g_step].
    destruct J as [R G W' F M N L]. destruct F as (F1&F2&F3&F4).
    constructor; cbn [a_stop_wd set_ref g_ref g_wd g_first g_forbid ref_theta ref_barr ref_gbd wd_theta wd_barr wd_gbd theta_max theta_min flt] in *; try assumption; try reflexivity.
    * rewrite W'. reflexivity.
    * rewrite W'. reflexivity.
    * repeat split; assumption.
  - unfold a_next, a_out, a_step, a_update.
    destruct (is_ftype_eq pw o al s) as (s1 & -> & ->).
    assert (J1 : inv x (set_gbd s (slope (ref_theta s) (ref_gbd s)))) by (apply inv_gbd; [apply slope_idem|exact J]).
    set (s1 := set_gbd s (slope (ref_theta s) (ref_gbd s))) in *. clearbody s1.
    match goal with |- context [if ?c then _ else _] => destruct c end; cbn [fst snd g_step].
    + apply inv_augment; exact J1.
    + exact J1.
  - apply (inv_augment it J).
Qed.

Lemma inv_run l : Forall aop_wf l -> forall x s, inv x s -> inv (g_run pw log10 o x s l) (a_run pw log10 o s l).
Proof.
  induction l as [|c l IH]; intros W x s J; [exact J|]. inversion W as [|? ? W1 W2]; subst.
  cbn [g_run a_run]. apply IH; auto. apply inv_step; auto.
Qed.

Lemma inv_start s : acc_fin s -> inv (Ghost (ref_theta s, ref_barr s, ref_gbd s) (wd_theta s, wd_barr s, wd_gbd s) None []) (a_initialize s).
Proof.
  intros F. constructor; cbn; try reflexivity; try assumption. constructor; intros ? [].
Qed.

Lemma corners_history x s th ba : inv x s ->
  (outside_corners (corners (flt s)) th ba <-> outside_corners (map (fun r => corner o (fst r) (snd r)) (g_forbid x)) th ba).
Proof.
  intros J. destruct (i_flt J) as [Wf Hwf Sub Dom]. unfold outside_corners, corners. split.
  - intros H pb pt I. apply in_map_iff in I. destruct I as (r & E & I).
    destruct (Dom (cvec r) (in_map cvec _ _ I)) as (e & Ie & Le).
    destruct (Wf e Ie) as [Le2 _]. destruct e as [v it]. cbn [evals] in *. destruct v as [|v0 [|v1 [|]]]; try discriminate Le2.
    unfold cvec in Le. rewrite E in Le. cbn [fst snd] in Le.
    specialize (Le 0%nat v0 pb eq_refl eq_refl) as L0. specialize (Le 1%nat v1 pt eq_refl eq_refl) as L1.
    apply nle_iff in L0. apply nle_iff in L1.
    destruct (H v0 v1) as [X|X].
    { apply in_map_iff. exists (mkEntry [v0; v1] it). split; [reflexivity|exact Ie]. }
    + left. apply nle_iff in X. apply nle_iff. intuition lra.
    + right. apply nle_iff in X. apply nle_iff. intuition lra.
  - intros H pb pt I. apply in_map_iff in I. destruct I as (e & E & Ie).
    apply Sub in Ie. apply in_map_iff in Ie. destruct Ie as (r & Er & Ir).
    apply H. apply in_map_iff. exists r. split; [|exact Ir]. unfold cvec in Er. rewrite <- Er in E. cbn [nth] in E.
    rewrite <- E. apply surjective_pairing.
Qed.

Lemma inv_hist s0 l : acc_fin s0 -> Forall aop_wf l ->
  inv (g_run pw log10 o (g_start s0) s0 (AInit :: l)) (a_run pw log10 o s0 (AInit :: l)).
Proof.
  intros F W. cbn [g_run a_run g_step]. apply inv_run; auto.
  unfold a_next, a_out, a_step. cbn [fst snd g_step]. apply inv_start; exact F.
Qed.
Lemma first_fin x s : inv x s -> nfin (first_of x) = true.
Proof.
  intros J. unfold first_of. pose proof (i_max J) as M. destruct (g_first x); [apply M|].
  rewrite (i_ref J). apply (i_fin J).
Qed.

(** the whole rule, by history *)
Lemma check_history s0 l al th ba : acc_fin s0 -> Forall aop_wf l ->
  let s := a_run pw log10 o s0 (AInit :: l) in
  let x := g_run pw log10 o (g_start s0) s0 (AInit :: l) in
  forall g, is_slope (fst (fst (g_ref x))) (snd (g_ref x)) g ->
  exists b f, a_out pw log10 o s (ACheck al (Some th) (Some ba)) = OCheck (Some (b, f)) /\
  (b = true <->
   filter_rule pw log10 o al (fst (fst (g_ref x))) (snd (fst (g_ref x))) g (tmin_for o (first_of x)) (tmax_for o (first_of x))
     (map (fun r => corner o (fst r) (snd r)) (g_forbid x)) th ba).
Proof.
  intros F W s x g G.
  assert (J : inv x s).
  { unfold x, s. cbn [g_run a_run g_step]. apply inv_run; auto.
    unfold a_next, a_out, a_step. cbn [fst snd g_step]. apply inv_start; exact F. }
  unfold a_out, a_step. destruct (check_some pw log10 o al th ba s) as (E & _).
  rewrite (surjective_pairing (check al (Some th) (Some ba) s)), E. cbn [snd].
  eexists _, _. split; [reflexivity|].
  assert (W2 : wf2 (flt s)) by (apply Forall_forall; intros e Ie; apply (fi_wf _ _ _ (i_flt J) e Ie)).
  rewrite (rule_spec pw log10 o al th ba s W2).
  destruct (inv_eff J) as (-> & ->). rewrite (i_ref J) in *. cbn [fst snd] in *.
  apply slope_is in G. rewrite (i_gbd J) in G. rewrite <- G.
  unfold filter_rule. rewrite (corners_history th ba J). reflexivity.
Qed.

(** ** The reset heuristic *)
Lemma check_count al th ba s : (0 <= succ_rej s)%Z ->
  let s' := fst (check al th ba s) in
  let r := OCheck (snd (check al th ba s)) in
  (0 <= succ_rej s' /\ n_resets s' = n_resets s /\
   (if is_fired r then a_reset_trigger o + succ_rej s' <= succ_rej s + 1 /\ 0 < a_max_resets o /\ is_accept r = true
    else succ_rej s' <= succ_rej s + (if is_accept r then 1 else 0)))%Z.
Proof.
  intros P. cbv zeta.
  destruct th as [th|]; [|cbn; lia].
  destruct ba as [ba|].
  2: { unfold a_check. destruct (ngt _ nzero && ngt th _); cbn; lia. }
  unfold a_check. set (s0 := set_thetas s _ _).
  assert (A : succ_rej s0 = succ_rej s /\ n_resets s0 = n_resets s) by (split; reflexivity). clearbody s0.
  destruct A as [A1 A2]. rewrite <- A1 in *. rewrite <- A2. clear A1 A2.
  destruct (ngt _ nzero && ngt th _); [cbn; lia|].
  assert (G : exists s1 ft, (if ngt al nzero then is_ftype pw o al s0 else (s0, false)) = (s1, ft) /\ succ_rej s1 = succ_rej s0 /\ n_resets s1 = n_resets s0).
  { destruct (ngt al nzero); [|eauto]. destruct (is_ftype_eq pw o al s0) as (s1 & -> & ->). eauto. }
  destruct G as (s1 & ft & -> & G1 & G2). rewrite <- G1 in *. rewrite <- G2. clear G1 G2 s0 s.
  destruct (if ft && _ then _ else _); cbn [negb]; [|cbn; lia].
  destruct (acceptable_to_filter ba th s1); cbn [negb]; [|cbn; lia].
  destruct (Z.ltb_spec 0 (a_max_resets o)); [|cbn; lia].
  destruct (n_resets s1 <? a_max_resets o)%Z; [|cbn; lia].
  destruct (last_rej s1); [|cbn; lia].
  cbn [set_rej succ_rej last_rej].
  destruct (Z.leb_spec (a_reset_trigger o) (succ_rej s1 + 1)); cbn; lia.
Qed.

Lemma count_step s c : (0 <= succ_rej s)%Z ->
  let s' := a_next pw log10 o s c in
  let r := a_out pw log10 o s c in
  (0 <= succ_rej s' /\
   (if is_fired r then a_reset_trigger o + succ_rej s' <= succ_rej s + 1 /\ 0 < a_max_resets o /\ is_accept r = true
    else succ_rej s' <= succ_rej s + (if is_accept r then 1 else 0)))%Z.
Proof.
  intros P. destruct c as [| |wd t b g|al th ba|t b g| |it al ba|it].
  - cbn; lia.
  - cbn; lia.
  - destruct wd; cbn; lia.
  - pose proof (check_count al th ba s P) as H. unfold a_next, a_out. cbn [a_step]. destruct (check al th ba s) as [s' r].
    cbn [fst snd] in *. cbv zeta in *. intuition.
  - cbn; lia.
  - cbn; lia.
  - cbv zeta. assert (E : succ_rej (a_next pw log10 o s (AUpdate it al ba)) = succ_rej s /\ is_fired (a_out pw log10 o s (AUpdate it al ba)) = false /\ is_accept (a_out pw log10 o s (AUpdate it al ba)) = false).
    { unfold a_next, a_out, a_step, a_update. destruct (is_ftype_eq pw o al s) as (s1 & -> & ->).
      match goal with |- context [if ?c then _ else _] => destruct c end; cbn; auto. }
    destruct E as (-> & -> & ->). lia.
  - cbn. lia.
Qed.

Lemma count_cons f r l : count f (r :: l) = ((if f r then 1 else 0) + count f l)%Z.
Proof. unfold count. cbn [List.filter]. destruct (f r); cbn [length]; lia. Qed.

Lemma reset_count l : forall s, (0 <= succ_rej s)%Z ->
  (0 <= succ_rej (a_run pw log10 o s l) /\
   count is_fired (a_outs pw log10 o s l) * a_reset_trigger o + succ_rej (a_run pw log10 o s l) <= count is_accept (a_outs pw log10 o s l) + succ_rej s /\
   (a_max_resets o <= 0 -> count is_fired (a_outs pw log10 o s l) = 0))%Z.
Proof.
  induction l as [|c l IH]; intros s P; [cbn; lia|].
  cbn [a_run a_outs]. rewrite !count_cons.
  pose proof (count_step s c P) as C. cbv zeta in C.
  destruct (IH (a_next pw log10 o s c) (proj1 C)) as (I1 & I2 & I3).
  destruct (is_fired (a_out pw log10 o s c)).
  - destruct C as (C1 & C2 & C3 & C4). rewrite C4 in *. split; [exact I1|]. split; [lia|]. intros. lia.
  - destruct C as (C1 & C2). split; [exact I1|]. split; [lia|]. intros. rewrite I3 by assumption. lia.
Qed.
End H.
