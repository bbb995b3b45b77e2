(** C21, C22, C37-C40: the filter line search. *)
From Coq Require Import List Bool ZArith Reals Lra Lia.
From Verif Require Import Num FilterModel ConvModel LsModel LsSpec LsProofs LsHist LsReset LsBack LsFind LsRun LsTerm LsLoop.
Import ListNotations.
Set Implicit Arguments.
Local Open Scope Z_scope.

(** ** C21 *)

(** The acceptor: after any sequence of calls, a trial point that can be evaluated is
    accepted exactly if it satisfies the filter rule for the reference values given
    last, the limits that belong to the violation at the first check, and the corners
    of the reference points entered since the last reset. *)
Theorem C21_accepted_iff_rule pw log10 o s0 l al th ba :
  aopts_wf o -> acc_fin s0 -> Forall aop_wf l ->
  let s := a_run pw log10 o s0 (AInit :: l) in
  let x := g_run pw log10 o (g_start s0) s0 (AInit :: l) in
  let first := match g_first x with Some t => t | None => fst (fst (g_ref x)) end in
  forall g, is_slope (fst (fst (g_ref x))) (snd (g_ref x)) g ->
  exists b f, a_out pw log10 o s (ACheck al (Some th) (Some ba)) = OCheck (Some (b, f)) /\
  (b = true <->
   filter_rule pw log10 o al (fst (fst (g_ref x))) (snd (fst (g_ref x))) g (tmin_for o first) (tmax_for o first)
     (map (fun r => corner o (fst r) (snd r)) (g_forbid x)) th ba).
Proof. intros W F A. exact (@check_history pw log10 o W s0 l al th ba F A). Qed.

(** The line search: a step reported as accepted by the rule (and not by a tiny step,
    the watchdog, soft restoration, restoration or an option that accepts every
    step) has been evaluated and satisfies the rule with the values of the current
    iterate, or, if watchdog steps precede it, with those of the iterate at which the
    first of these was made. *)
Theorem C21_step_satisfies_rule pw log10 ao bo (I D : Type) (p0 : I) start inf a0 (l : list (@bop I D)) s log e fuel s' p al :
  b_hist pw log10 ao bo (b_initial bo D p0 start inf a0) l = (s, log) -> Forall (fun k => goes_on k = true) log ->
  find_trial pw log10 ao bo e fuel s = (s', LSTrial p (ByRule al)) ->
  exists th ba rt rb g gs,
    e_theta e p = Some th /\ e_barr e p = Some ba /\ is_slope rt g gs /\
    ((rt, rb, g) = values_at e (curr s) \/
     exists k before, take_while (@watchdog_step I D) log = before ++ [k] /\ (rt, rb, g) = values_at (k_env k) (k_at k)) /\
    filter_rule pw log10 ao al rt rb gs (eff_tmin ao (ref_acc e s)) (eff_tmax ao (ref_acc e s)) (corners (flt (lsa s))) th ba.
Proof.
  intros H F E.
  assert (G : good bo s log).
  { pose proof (@good_fold pw log10 ao bo I D l (b_initial bo D p0 start inf a0) [] (@good_start bo I D p0 start inf a0)) as X.
    unfold b_hist in H. rewrite H in X. apply X. exact F. }
  apply find_post in E. destruct (o_rule E eq_refl) as ((th & ba & T & B & R) & _ & _).
  assert (W2 : wf2 (flt (ref_acc e s))) by (unfold ref_acc, a_init_ls; destruct (wd_on e s); apply (g_flt G)).
  apply (rule_spec pw log10 ao al th ba (ref_acc e s) W2) in R.
  exists th, ba, (ref_theta (ref_acc e s)), (ref_barr (ref_acc e s)), (ref_gbd (ref_acc e s)), (slope (ref_theta (ref_acc e s)) (ref_gbd (ref_acc e s))).
  split; [exact T|]. split; [exact B|]. split; [apply slope_spec|]. split.
  - unfold ref_acc, a_init_ls. destruct (wd_on e s) eqn:ON; [right|left; reflexivity].
    unfold wd_on in ON. apply andb_true_iff in ON. destruct ON as [ON _].
    destruct (g_wd G ON) as (k & b & K1 & _ & _ & _ & K2). exists k, b. split; [exact K1|exact K2].
  - replace (corners (flt (lsa s))) with (corners (flt (ref_acc e s))); [exact R|]. unfold ref_acc, a_init_ls. destruct (wd_on e s); reflexivity.
Qed.

(** Violation limit: whatever the history, an accepted point does not exceed the
    largest allowed violation *)
Corollary C21_violation_limit pw log10 o s0 l al th ba f :
  aopts_wf o -> acc_fin s0 -> Forall aop_wf l ->
  let s := a_run pw log10 o s0 (AInit :: l) in
  let x := g_run pw log10 o (g_start s0) s0 (AInit :: l) in
  a_out pw log10 o s (ACheck al (Some th) (Some ba)) = OCheck (Some (true, f)) ->
  nlt (tmax_for o (match g_first x with Some t => t | None => fst (fst (g_ref x)) end)) th = false.
Proof.
  intros W F A s x H.
  set (rt := fst (fst (g_ref x))).
  destruct (@C21_accepted_iff_rule pw log10 o s0 l al th ba W F A (slope rt (snd (g_ref x))) (slope_spec _ _)) as (b & f' & E & IFF).
  fold s in E. rewrite H in E. injection E as <- <-. destruct (proj1 IFF eq_refl) as (L & _). fold x in L.
  pose proof (first_fin (inv_hist pw log10 W F A)) as FF. fold x in FF.
  change (first_of x) with (match g_first x with Some t => t | None => fst (fst (g_ref x)) end) in FF.
  set (fr := match g_first x with Some t => t | None => _ end) in *.
  destruct (nlt (tmax_for o fr) th) eqn:X; [|reflexivity]. exfalso. apply L. split; [|reflexivity].
  destruct W as (_ & _ & _ & W1 & W2 & _). apply (limit_positive _ _ W1 W2 FF).
Qed.

(** Not every filter entry comes from a point of this solve: when the search
    direction cannot be computed in the first iteration, restoration starts at once
    and the filter gets an entry made of reference values that were never set. *)
Definition lost : @env num num :=
  Env none 0 none (fun _ => none) (fun _ => none) (fun _ _ => nofZ (-1)) (fun _ _ => none)
      (fun p d al => p) (fun _ => Some none) (fun _ => Some none)
      (fun _ _ => None) (fun _ _ _ _ => SocFail) (fun _ _ => none) (fun _ => None) (fun _ => None)
      (fun _ _ => false) nzero (fun _ => false) false false true (fun _ => false) (fun p => RestoPoint p).
Definition lost_acc (t b : num) : acc := Acc t b nzero nzero nzero nzero nzero nzero false 0 0 [].
Lemma fallback_augments pw log10 ao bo (I D : Type) (e : @env I D) fuel (s : @bls I D) p :
  fallback s = true -> in_wd s = false -> in_soft s = false -> rigorous s = true -> (forall c, e_acceptable e c = false) -> e_has_resto e = true ->
  (forall c, e_almost_feasible e c = false) -> e_resto e (curr s) = RestoPoint p ->
  lsa (fst (find_trial pw log10 ao bo e fuel s)) = augment ao (e_iter e) (lsa s).
Proof.
  intros F W SO R A HR AF RE. unfold find_trial. pose proof (entry_spec e s) as E. cbv zeta in E.
  destruct E as (E1&E2&E3&E4&E5&E6&E7&_). rewrite HR. cbn [negb]. rewrite andb_false_r.
  destruct (ft_goto e (ft_entry e s)) as [s2 g] eqn:EG. destruct (goto_spec EG) as (G1&G2&G3&G4&G5&_&_&_&_&_&_&_&_&G14&_).
  destruct (G14 ltac:(congruence)) as (-> & GL).
  assert (W2 : in_wd s2 = false) by (rewrite G2, E3; unfold wd_on; rewrite W; reflexivity).
  assert (EW : ft_watch bo e true s2 = (s2, true, false, e_delta e)).
  { unfold ft_watch. rewrite W2. cbn [negb andb]. rewrite !andb_false_r. reflexivity. }
  rewrite EW. cbn [andb]. unfold ft_body, ft_fail. sredg.
  rewrite G5, E6, R. cbn [negb]. rewrite andb_false_r. cbn [andb].
  unfold ft_resto. sredg. rewrite G3, E4, SO. cbn [negb]. cbv zeta. rewrite A. sredg. rewrite HR. cbn [negb]. rewrite AF.
  rewrite G1, E1, RE. cbn [fst]. sredg. rewrite GL, E2. reflexivity.
Qed.
Lemma fallback_then pw log10 ao bo (I D : Type) (e : @env I D) fuel (s : @bls I D) p :
  in_wd s = false -> in_soft s = false -> (forall c, e_acceptable e c = false) -> e_has_resto e = true ->
  (forall c, e_almost_feasible e c = false) -> e_resto e (curr s) = RestoPoint p ->
  lsa (fst (b_hist pw log10 ao bo s [BFallback; BFind e fuel])) = augment ao (e_iter e) (lsa s).
Proof.
  intros W SO A HR AF RE. unfold b_hist. cbn [fold_left b_do fst snd b_step].
  set (s1 := Bls _ _ _ _ _ _ _ _ _ _ _ _ _ _ _ _ _ _ _ _ _).
  pose proof (@fallback_augments pw log10 ao bo I D e fuel s1 p eq_refl W SO eq_refl A HR AF RE) as X.
  destruct (find_trial pw log10 ao bo e fuel s1) as [s' r]. cbn [fst snd] in *. destruct r; exact X.
Qed.
Theorem C21_filter_entries_from_iterates_refuted pw log10 ao bo t b :
  flt (lsa (fst (b_hist pw log10 ao bo (b_initial bo num none false false (lost_acc t b)) [BFallback; BFind lost 1])))
   = [mkEntry [fst (corner ao t b); snd (corner ao t b)] 0].
Proof.
  rewrite (@fallback_then pw log10 ao bo num num lost 1 (b_initial bo num none false false (lost_acc t b)) none eq_refl eq_refl (fun _ => eq_refl) eq_refl (fun _ => eq_refl) eq_refl).
  reflexivity.
Qed.

(** Non-vacuity: with the default options, reference violation 1, barrier 1 and a
    corner entered at (1, 1): a trial point with half the violation is accepted, the
    reference point itself is not, a point above the violation limit is not. *)
Definition checks (l : list aop) : list aop := AInit :: AInitLS false none none none :: APrepareResto 0 :: l.
Definition verdicts (l : list aout) : list (option bool) := map (fun r => match r with OCheck (Some (b, _)) => Some b | _ => None end) l.
Example C21_example : verdicts (a_outs pow0 log0 dflt junk (checks
   [ACheck none (Some (nrat 1 2)) (Some (nofZ 2)); ACheck none (Some none) (Some none); ACheck none (Some (nofZ 100000)) (Some (nofZ (-5)))])) =
   [None; None; None; Some true; Some false; Some false].
Proof. vm_compute. reflexivity. Qed.
Example C21_hypotheses : aopts_wf dflt /\ acc_fin junk /\ Forall aop_wf (tl (checks [ACheck none (Some (nrat 1 2)) (Some (nofZ 2))])).
Proof.
  split; [exact dflt_wf|]. split; [repeat split|]. unfold checks. cbn [tl]. repeat constructor; vm_compute; reflexivity.
Qed.

(** ** C22 *)

(** Not true: with the default options (max_filter_resets = 5) the heuristic clears the
    filter any number of times in one solve. *)
Theorem C22_resets_limited_refuted pw log10 :
  a_max_resets dflt = 5 /\
  forall n : nat, exists l, Forall aop_wf l /\ count is_fired (a_outs pw log10 dflt junk (AInit :: l)) = Z.of_nat (S n).
Proof.
  split; [reflexivity|]. intros n. exists (blocks (S n)). split; [apply blocks_wf|apply many].
Qed.

(** What holds: every reset needs filter_reset_trigger accepted steps of its own. *)
Theorem C22_resets_need_accepted_steps pw log10 o s0 l :
  count is_fired (a_outs pw log10 o s0 (AInit :: l)) * a_reset_trigger o <= count is_accept (a_outs pw log10 o s0 (AInit :: l)).
Proof.
  cbn [a_outs]. rewrite !count_cons. change (a_next pw log10 o s0 AInit) with (a_initialize s0).
  change (is_fired (a_out pw log10 o s0 AInit)) with false. change (is_accept (a_out pw log10 o s0 AInit)) with false.
  destruct (reset_count pw log10 o l (a_initialize s0)) as (A & B & _); [cbn; lia|]. change (succ_rej (a_initialize s0)) with 0 in B. lia.
Qed.
(** and max_filter_resets = 0 switches the heuristic off *)
Theorem C22_zero_switches_off pw log10 o s0 l : a_max_resets o <= 0 -> count is_fired (a_outs pw log10 o s0 (AInit :: l)) = 0.
Proof.
  intros M. cbn [a_outs]. rewrite !count_cons. change (a_next pw log10 o s0 AInit) with (a_initialize s0).
  change (is_fired (a_out pw log10 o s0 AInit)) with false.
  destruct (reset_count pw log10 o l (a_initialize s0)) as (A & _ & B); [cbn; lia|]. rewrite (B M). reflexivity.
Qed.

(** ** C37: backtracking ends *)

(** for every problem, if alpha_red_factor <= 1/2 (the default is 1/2) *)
Theorem C37_backtracking_ends pw log10 ao bo (I D : Type) (e : @env I D) (s : @bls I D) :
  nfin (b_red bo) = true -> (0 <= key (b_red bo) <= / 2)%R ->
  (forall p d, nfin (e_alpha_max e p d) = true /\ (0 <= key (e_alpha_max e p d) <= 1)%R) ->
  (forall p, nlt (e_ctheta e p) nzero = false) ->
  (forall x y, nlt x nzero = false -> nlt (pw x y) nzero = false /\ pw x y <> nopp nzero) ->
  nlt (a_gamma_theta ao) nzero = false -> nlt (a_gamma_phi ao) nzero = false -> nlt (a_delta ao) nzero = false -> nlt (a_alpha_min_frac ao) nzero = false ->
  exists fuel0 : nat, forall fuel, (fuel0 <= fuel)%nat -> snd (find_trial pw log10 ao bo e fuel s) <> LSLoop.
Proof.
  intros RF RK SO TO PW O1 O2 O3 O4. exists enough. intros fuel L. apply find_ends; auto.
  - split; [exact RF|]. lra.
  - intros p a. pose proof (@alpha_min_nonneg pw ao (e_gbd e p (e_delta e)) (e_ctheta e p) a PW O1 O2 O3 O4 (TO p)) as N.
    apply nonneg_key in N. unfold amin_ok. destruct N as [N|N]; [left; exact N|right; right; split; [exact N|lra]].
Qed.

(** for any factor below 1, if the smallest step size tried is at least 2^-1022 *)
Theorem C37_backtracking_ends_min_step pw log10 ao bo (I D : Type) (e : @env I D) (s : @bls I D) :
  nfin (b_red bo) = true -> (0 <= key (b_red bo) < 1)%R ->
  (forall p d, nfin (e_alpha_max e p d) = true /\ (0 <= key (e_alpha_max e p d) <= 1)%R) ->
  (forall p a, (Raux.bpow Zaux.radix2 (-1022) <= key (alpha_min pw ao (e_gbd e p (e_delta e)) (e_ctheta e p) a))%R) ->
  exists fuel0 : nat, forall fuel, (fuel0 <= fuel)%nat -> snd (find_trial pw log10 ao bo e fuel s) <> LSLoop.
Proof.
  intros RF RK SO AM. exists enough. intros fuel L. apply find_ends; auto.
  - split; [exact RF|exact RK].
  - intros p a. right; left. pose proof (AM p a) as X.
    exact X.
Qed.

(** Not true for every allowed factor: with alpha_red_factor = 0.9, all other options at
    their default values, minimising (-x)^1.5 - x from x = 0 never ends: the step sizes
    get stuck at 2^-1072 while the smallest step size is 0. *)
Theorem C37_backtracking_ends_refuted :
  b_red (bdflt (nrat 9 10)) = nrat 9 10 /\
  forall fuel, snd (find_trial pow0 log0 dflt (bdflt (nrat 9 10)) cliff fuel cliff_start) = LSLoop.
Proof. split; [reflexivity|exact cliff_forever]. Qed.

(** ** Example environments for the following theorems: an iterate is a number; its
    violation and its barrier function have this number as value. The full step adds 1,
    any other step multiplies by 1/2. *)
Definition line (good_short : bool) (pd : num) (acceptable : num -> bool) (res : num -> restores num) : @env num unit :=
  Env none 0 tt (fun p => p) (fun p => p) (fun _ _ => none) (fun _ _ => none)
      (fun p _ al => if good_short && negb (neqb al none) then nmul p (nrat 1 2) else nadd p none)
      (fun p => Some p) (fun p => Some p)
      (fun _ _ => None) (fun _ _ _ _ => SocFail) (fun _ _ => none) (fun _ => Some pd) (fun _ => Some none)
      (fun _ _ => false) nzero acceptable false false true (fun _ => false) res.
Definition kind (k : @call num unit) : nat :=
  match k_res k with
  | LSTrial _ ByTiny => 0 | LSTrial _ ByWatchdog => 1 | LSTrial _ (ByRule _) => 2 | LSTrial _ ByForce => 3
  | LSTrial _ (BySoft true) => 4 | LSTrial _ (BySoft false) => 5 | LSTrial _ ByResto => 6
  | LSSkipped => 7 | LSThrow EX_ACCEPTABLE_POINT_REACHED => 8 | LSThrow _ => 9 | LSLoop => 10
  end%nat.
Definition half_opts (trigger : Z) : bopts := BOpts (nrat 1 2) false (-1) 3 trigger (nsub none (nrat 1 10000)) 10 (nrat 1 1000) (nrat 1 100).
Definition ups (n : nat) (e : @env num unit) : list (@bop num unit) := repeat (BFind e 60) n.
Definition start_at (bo : bopts) : @bls num unit := b_initial bo unit none false false junk.

Definition ended {I : Type} (r : @lsres I) : bool := match r with LSLoop => false | _ => true end.
Example C37_example : ended (snd (find_trial pow0 log0 dflt (half_opts 10) (line true none (fun _ => false) (fun _ => RestoFail)) 60 (start_at (half_opts 10)))) = true.
Proof. vm_compute. reflexivity. Qed.

(** ** C38: the watchdog *)

(** At most watchdog_trial_iter_max steps in a row are taken without passing the test. *)
Theorem C38_watchdog_bounded pw log10 ao bo (I D : Type) (p0 : I) start inf a0 (l : list (@bop I D)) s log :
  b_hist pw log10 ao bo (b_initial bo D p0 start inf a0) l = (s, log) -> Forall (fun k => goes_on k = true) log ->
  Z.of_nat (length (take_while (@watchdog_step I D) log)) <= Z.max 0 (b_wd_max bo).
Proof.
  intros H F.
  pose proof (@good_fold pw log10 ao bo I D l (b_initial bo D p0 start inf a0) [] (@good_start bo I D p0 start inf a0)) as G.
  unfold b_hist in H. rewrite H in G. specialize (G F). cbn [fst snd] in G.
  destruct (in_wd s) eqn:W.
  - destruct (g_wd G W) as (k & b & K1 & K2 & K3 & _). unfold wd_calls in K2. lia.
  - pose proof (g_nowd G W) as X. unfold wd_calls in X. rewrite X. cbn. lia.
Qed.

(** The call that ends a series of watchdog steps (no change of the barrier
    parameter) ends with a step that satisfies the filter rule for the values at which
    the series began, or with the iterate at which the series began, or with the
    stored acceptable iterate. *)
Theorem C38_watchdog_ends_well pw log10 ao bo (I D : Type) (p0 : I) start inf a0 (l : list (@bop I D)) s log e fuel s' r k before :
  b_hist pw log10 ao bo (b_initial bo D p0 start inf a0) l = (s, log) -> Forall (fun k => goes_on k = true) log ->
  take_while (@watchdog_step I D) log = before ++ [k] ->
  neqb (last_mu s) (e_mu e) = true -> b_every bo = false -> b_after bo = -1 ->
  find_trial pw log10 ao bo e fuel s = (s', r) -> goes_on (Call (curr s) e r) = true -> watchdog_step (Call (curr s) e r) = false ->
  (exists p al th ba gs, r = LSTrial p (ByRule al) /\ e_theta e p = Some th /\ e_barr e p = Some ba /\
     is_slope (e_ctheta (k_env k) (k_at k)) (e_gbd (k_env k) (k_at k) (e_delta (k_env k))) gs /\
     filter_rule pw log10 ao al (e_ctheta (k_env k) (k_at k)) (e_cbarr (k_env k) (k_at k)) gs
       (eff_tmin ao (ref_acc e s)) (eff_tmax ao (ref_acc e s)) (corners (flt (lsa s))) th ba) \/
  curr s' = k_at k \/ acc_iterate s' = Some (curr s').
Proof.
  intros H F T MU EV AF E GO NW.
  assert (G : good bo s log).
  { pose proof (@good_fold pw log10 ao bo I D l (b_initial bo D p0 start inf a0) [] (@good_start bo I D p0 start inf a0)) as X.
    unfold b_hist in H. rewrite H in X. apply X. exact F. }
  destruct (in_wd s) eqn:W.
  2: { pose proof (g_nowd G W) as X. unfold wd_calls in X. rewrite X in T. destruct before; discriminate T. }
  destruct (g_wd G W) as (k' & b & K1 & _ & _ & K4 & K5). unfold wd_calls in K1. rewrite K1 in T. apply app_inj_tail in T. destruct T as [_ ->].
  assert (ON : wd_on e s = true) by (unfold wd_on; rewrite W, MU; reflexivity).
  assert (NS : in_soft s = false). { destruct (in_soft s) eqn:X; [|reflexivity]. exfalso. apply (g_excl G X W). }
  pose proof E as E'. apply find_post in E'.
  destruct (o_end E' ON NS) as [(p & [P|(al & P)])|[P|P]].
  - intros p ->. discriminate NW.
  - intros ->. discriminate GO.
  - intros ->. discriminate GO.
  - exfalso. destruct (o_force E' P) as (_ & [X|X] & _); congruence.
  - left. subst r. destruct (@C21_step_satisfies_rule pw log10 ao bo I D p0 start inf a0 l s log e fuel s' p al H F E) as (th & ba & rt & rb & g & gs & A1 & A2 & A3 & _ & A5).
    destruct (o_rule E' eq_refl) as ((th' & ba' & T1 & B1 & R) & _ & _).
    assert (W2 : wf2 (flt (ref_acc e s))) by (unfold ref_acc, a_init_ls; destruct (wd_on e s); apply (g_flt G)).
    apply (rule_spec pw log10 ao al th' ba' (ref_acc e s) W2) in R.
    exists p, al, th', ba', (slope (ref_theta (ref_acc e s)) (ref_gbd (ref_acc e s))). split; [reflexivity|]. split; [exact T1|]. split; [exact B1|].
    assert (RA : ref_theta (ref_acc e s) = e_ctheta (k_env k) (k_at k) /\ ref_barr (ref_acc e s) = e_cbarr (k_env k) (k_at k) /\
                 ref_gbd (ref_acc e s) = e_gbd (k_env k) (k_at k) (e_delta (k_env k)) /\ flt (ref_acc e s) = flt (lsa s)).
    { unfold ref_acc, a_init_ls. rewrite ON. cbn [set_ref ref_theta ref_barr ref_gbd flt]. unfold values_at in K5. injection K5 as -> -> ->. auto. }
    destruct RA as (R1 & R2 & R3 & R4). rewrite R4, R2, R1, R3 in R. rewrite R1, R3.
    split; [apply slope_spec|exact R].
  - right; left. rewrite P. unfold stored. rewrite K4. reflexivity.
  - right; right. exact P.
Qed.

(** Non-vacuity: one shortened step, three watchdog steps, then back to the iterate where
    they began and a shortened step from there. *)
Definition wd_run := b_hist pow0 log0 dflt (half_opts 1) (start_at (half_opts 1)) (ups 5 (line true none (fun _ => false) (fun _ => RestoFail))).
Example C38_example : map kind (snd wd_run) = [2; 1; 1; 1; 2]%nat /\ forallb (@goes_on num unit) (snd wd_run) = true /\
  num_is (curr (fst wd_run)) (nrat 1 4) = true.
Proof. vm_compute. auto. Qed.

(** ** C39: soft restoration *)

(** Between resets of the line search, at most max_soft_resto_iters + 1 successive calls
    return a step of the soft restoration phase. *)
Theorem C39_soft_bounded pw log10 ao bo (I D : Type) (p0 : I) start inf a0 (l1 l2 : list (@bop I D)) s log :
  b_hist pw log10 ao bo (b_initial bo D p0 start inf a0) (l1 ++ l2) = (s, log) -> Forall (fun k => goes_on k = true) log ->
  (forall c, In c l2 -> c <> BReset) ->
  let n := length (List.filter (fun c => match c with BFind _ _ => true | _ => false end) l2) in
  Forall (fun k => soft_step k = true) (firstn n log) ->
  Z.of_nat n <= Z.max 1 (b_soft_max bo + 1).
Proof.
  intros H F NR n S0.
  unfold b_hist in H. rewrite fold_left_app in H.
  destruct (fold_left (b_do pw log10 ao bo (D := D)) l1 (b_initial bo D p0 start inf a0, [])) as [s1 log1] eqn:E1.
  assert (F1 : Forall (fun k => goes_on k = true) log1).
  { assert (X : forall l s log, exists new, snd (fold_left (@b_do pw log10 ao bo I D) l (s, log)) = new ++ log).
    { clear. induction l as [|c l IH]; intros s log; [exists []; reflexivity|]. cbn [fold_left].
      destruct (b_do pw log10 ao bo (s, log) c) as [s2 log2] eqn:E. destruct (IH s2 log2) as [n ->].
      destruct (@do_log pw log10 ao bo I D s log c) as [m M]. rewrite E in M. cbn [snd] in M. rewrite M. exists (n ++ m). rewrite app_assoc. reflexivity. }
    destruct (X l2 s1 log1) as [new N]. rewrite H in N. cbn [snd] in N. rewrite N in F. apply Forall_app in F. apply F. }
  assert (G1 : good bo s1 log1).
  { pose proof (@good_fold pw log10 ao bo I D l1 (b_initial bo D p0 start inf a0) [] (@good_start bo I D p0 start inf a0)) as X.
    rewrite E1 in X. apply X. exact F1. }
  destruct n as [|m] eqn:EN; [lia|].
  pose proof (@soft_seg pw log10 ao bo I D l2 s1 log1 G1) as X. rewrite H in X. cbn [fst snd] in X.
  change (finds l2) with n in X. cbv zeta in X. rewrite EN in X.
  destruct X as (_ & X2 & X3); auto; [|lia|].
  { apply forallb_forall. intros c Ic. specialize (NR c Ic). destruct c; try reflexivity. congruence. }
  destruct m as [|m]; [lia|]. specialize (X3 ltac:(lia)). lia.
Qed.

(** Every such step reduces the primal-dual error by the factor soft_resto_pderror_reduction_factor. *)
Theorem C39_soft_progress pw log10 ao bo (I D : Type) (s : @bls I D) e fuel s' p :
  find_trial pw log10 ao bo e fuel s = (s', LSTrial p (BySoft false)) ->
  exists pt pc, e_pd_trial e p = Some pt /\ e_pd_curr e (curr s') = Some pc /\ nle pt (nmul (b_soft_factor bo) pc) = true.
Proof. intros E. apply find_post in E. destruct (o_soft E eq_refl) as (_ & R & _). exact R. Qed.

(** The step that ends the phase ('S') satisfies the filter rule (with step size zero,
    that is, without the Armijo alternative) for the values of the current iterate. *)
Theorem C39_soft_return_satisfies_rule pw log10 ao bo (I D : Type) (p0 : I) start inf a0 (l : list (@bop I D)) s log e fuel s' p :
  b_hist pw log10 ao bo (b_initial bo D p0 start inf a0) l = (s, log) -> Forall (fun k => goes_on k = true) log ->
  in_soft s = true -> find_trial pw log10 ao bo e fuel s = (s', LSTrial p (BySoft true)) ->
  in_soft s' = false /\ exists th ba gs, e_theta e p = Some th /\ e_barr e p = Some ba /\
    is_slope (e_ctheta e (curr s)) (e_gbd e (curr s) (e_delta e)) gs /\
    filter_rule pw log10 ao nzero (e_ctheta e (curr s)) (e_cbarr e (curr s)) gs (eff_tmin ao (ref_acc e s)) (eff_tmax ao (ref_acc e s)) (corners (flt (lsa s))) th ba.
Proof.
  intros H F IS E.
  assert (G : good bo s log).
  { pose proof (@good_fold pw log10 ao bo I D l (b_initial bo D p0 start inf a0) [] (@good_start bo I D p0 start inf a0)) as X.
    unfold b_hist in H. rewrite H in X. apply X. exact F. }
  apply find_post in E. destruct (o_back E eq_refl) as (N & a & A & [DD|(X & _)]); [|congruence].
  split; [exact N|]. apply (accepted_decides DD) in A. destruct A as (th & ba & T & B & R).
  assert (NW : wd_on e s = false). { unfold wd_on. destruct (in_wd s) eqn:W; [|reflexivity]. exfalso. apply (g_excl G IS W). }
  assert (W2 : wf2 (flt (ref_acc e s))) by (unfold ref_acc, a_init_ls; destruct (wd_on e s); apply (g_flt G)).
  apply (rule_spec pw log10 ao nzero th ba (ref_acc e s) W2) in R.
  assert (RA : ref_theta (ref_acc e s) = e_ctheta e (curr s) /\ ref_barr (ref_acc e s) = e_cbarr e (curr s) /\
               ref_gbd (ref_acc e s) = e_gbd e (curr s) (e_delta e) /\ flt (ref_acc e s) = flt (lsa s)).
  { unfold ref_acc, a_init_ls. rewrite NW. auto. }
  destruct RA as (R1 & R2 & R3 & R4). rewrite R4, R2, R1, R3 in R.
  exists th, ba, (slope (e_ctheta e (curr s)) (e_gbd e (curr s) (e_delta e))). split; [exact T|]. split; [exact B|]. split; [apply slope_spec|exact R].
Qed.

(** Non-vacuity: all trial points fail, the primal-dual error halves: eleven soft steps,
    then restoration. *)
Definition soft_run := b_hist pow0 log0 dflt (half_opts 10) (start_at (half_opts 10)) (ups 12 (line false (nrat 1 2) (fun _ => false) (fun p => RestoPoint p))).
Example C39_example : map kind (snd soft_run) = [6; 5; 5; 5; 5; 5; 5; 5; 5; 5; 5; 5]%nat /\ forallb (@goes_on num unit) (snd soft_run) = true.
Proof. vm_compute. auto. Qed.

(** ** C40: "acceptable point reached" is true *)

(** If the line search ends with ACCEPTABLE_POINT_REACHED (not thrown by the restoration
    phase), the iterate it leaves behind is one at which, in this or an earlier call,
    the acceptable-level test was satisfied. *)
Theorem C40_acceptable_point pw log10 ao bo (I D : Type) (p0 : I) start inf a0 (l : list (@bop I D)) s log e fuel s' :
  b_hist pw log10 ao bo (b_initial bo D p0 start inf a0) l = (s, log) -> Forall (fun k => goes_on k = true) log ->
  find_trial pw log10 ao bo e fuel s = (s', LSThrow EX_ACCEPTABLE_POINT_REACHED) ->
  (forall c, e_resto e c <> RestoThrow EX_ACCEPTABLE_POINT_REACHED) ->
  e_acceptable e (curr s') = true \/ exists k, In k log /\ k_at k = curr s' /\ e_acceptable (k_env k) (curr s') = true.
Proof.
  intros H F E NR.
  assert (G : good bo s log).
  { pose proof (@good_fold pw log10 ao bo I D l (b_initial bo D p0 start inf a0) [] (@good_start bo I D p0 start inf a0)) as X.
    unfold b_hist in H. rewrite H in X. apply X. exact F. }
  apply find_post in E. destruct (o_throw E eq_refl NR) as [X|X]; [left; exact X|].
  rewrite (o_acc E) in X. destruct (e_acceptable e (curr s)) eqn:EA.
  - left. injection X as <-. exact EA.
  - right. exact (g_acc G X).
Qed.

(** Non-vacuity: the first iterate is acceptable, the second is not and restoration
    fails there: the solver goes back to the first. *)
Definition acc_run := b_hist pow0 log0 dflt (half_opts 10) (start_at (half_opts 10))
  (ups 1 (line true none (fun p => neqb p none) (fun _ => RestoFail)) ++ ups 1 (line false none (fun p => neqb p none) (fun _ => RestoFail))).
Example C40_example : map kind (snd acc_run) = [8; 2]%nat /\ num_is (curr (fst acc_run)) none = true.
Proof. vm_compute. auto. Qed.

Print Assumptions C21_accepted_iff_rule.
Print Assumptions C21_step_satisfies_rule.
Print Assumptions C22_resets_limited_refuted.
Print Assumptions C37_backtracking_ends.
Print Assumptions C37_backtracking_ends_refuted.
Print Assumptions C38_watchdog_ends_well.
Print Assumptions C39_soft_bounded.
Print Assumptions C40_acceptable_point.
