(** Theorems C30, C31, C32, C46, C47. *)
From Coq Require Import List Bool ZArith Reals Lra Lia.
From Flocq Require Import Core BinarySingleNaN.
From Verif Require Import Num VecModel InitModel InitSpec InitProofs InitNum InitReal.
Import ListNotations.
Local Open Scope R_scope.

Lemma Forall2_map_same {A B} (P : A -> B -> Prop) (f : A -> B) l : Forall (fun a => P a (f a)) l -> Forall2 P l (map f l).
Proof. induction 1; cbn; constructor; auto. Qed.

(** * C30: the starting point *)
(** Every variable (and constraint slack) is moved to the nearest value that has
    the distance from its bounds that the options ask for, and thereby strictly
    between them; the bounds stay. *)
Theorem C30_start_point_inside :
  forall lg tiny push frac vs, 0 < tiny -> 0 < push -> 0 < frac <= 1 / 2 -> Forall (room frac tiny) vs ->
  Forall2 (fun v v' =>
      v_lo v' = v_lo v /\ v_up v' = v_up v /\
      nearest (well_inside push frac tiny (v_lo v) (v_up v)) (v_x v) (v_x v') /\
      (forall l, v_lo v = Some l -> l < v_x v') /\ (forall u, v_up v = Some u -> v_x v' < u))
    vs (push_variables (R_ops lg) tiny push frac vs).
Proof.
  intros lg tiny push frac vs Ht Hp Hf H. rewrite push_map by assumption. apply Forall2_map_same.
  eapply Forall_impl; [|exact H]. intros v R. cbn [v_lo v_up v_x].
  pose proof (pushed_nearest lg tiny push frac Ht Hp Hf v R) as N.
  split; [reflexivity|]. split; [reflexivity|]. split; [exact N|]. split.
  - intros l L. destruct N as [[N _] _]. specialize (N l L).
    assert (0 < wanted_low push frac tiny l (v_up v)); [|lra].
    apply wanted_low_pos; auto; intros u U; exact (R l u L U).
  - intros u U. destruct N as [[_ N] _]. specialize (N u U).
    assert (0 < wanted_upp push frac tiny u (v_lo v)); [|lra].
    apply wanted_upp_pos; auto; intros l L; exact (R l u L U).
Qed.
(** A point that already has that distance is not moved. *)
Theorem C30_good_start_kept :
  forall lg tiny push frac v, 0 < tiny -> 0 < push -> 0 < frac <= 1 / 2 -> room frac tiny v ->
  well_inside push frac tiny (v_lo v) (v_up v) (v_x v) ->
  push_variables (R_ops lg) tiny push frac [v] = [v].
Proof.
  intros lg tiny push frac v Ht Hp Hf R W. rewrite push_map by assumption. cbn [map].
  destruct (pushed_nearest lg tiny push frac Ht Hp Hf v R) as [_ N]. specialize (N _ W).
  rewrite (Rminus_diag_eq (v_x v)) in N by reflexivity. rewrite Rabs_R0 in N.
  assert (E : pushed lg tiny push frac v = v_x v).
  { destruct (Req_dec (pushed lg tiny push frac v - v_x v) 0) as [E|E]; [lra|]. apply Rabs_pos_lt in E. lra. }
  rewrite E. destruct v; reflexivity.
Qed.
Example C30_ex : Forall (room (1/100) (1/1000)) [VAR 5 (Some 0) (Some 1); VAR 5 None (Some 1); VAR 2 (Some 3) None; VAR 0 None None].
Proof. repeat constructor; intros l u; cbn; intros [=] [=]; subst; lra. Qed.

(** With doubles the point can stay on a bound when the bounds are only a few
    units in the last place apart (default options). *)
Definition dtiny : num := @B754_finite 53 1024 false 7036874417766400 (-1068) eq_refl. (* 100 DBL_MIN *)
Definition deps : num := ndiv (nofZ 1) (nofZ (2 ^ 52)).
Definition ddmin : num := @B754_finite 53 1024 false 4503599627370496 (-1074) eq_refl. (* 2^-1022 *)
Theorem C30_strictly_inside_double_refuted :
  exists l u x : num, nlt l u = true /\ nlt l x = true /\ nlt x u = true /\
  forall lg, match push_variables (num_ops lg) dtiny (nrat 1 100) (nrat 1 100) [VAR l (Some l) (Some u)] with
             | [v'] => nlt l (v_x v') | _ => true end = false.
Proof.
  exists (nofZ 10000000000000000), (nofZ 10000000000000004), (nofZ 10000000000000002).
  repeat split; try (vm_compute; reflexivity).
Qed.

(** * C31: relaxation of the bounds *)
(** Lower bounds only go down, upper bounds only up, by min(constr_viol_tol,
    max(1,|b|)*factor) up to rounding; nothing happens for factor 0. *)
Theorem C31_relaxed_lower :
  forall lg (f ctol : num) ls, nfin f = true -> nfin ctol = true -> 0 < key ctol -> 0 <= key f -> Forall (fun l => nfin l = true) ls ->
  Forall2 (fun l l' => num_le l' l /\ fl (key l - key ctol) <= key l' /\
      (key f = 0 -> l' = l) /\
      (0 < key f -> key l' = fl (key l - Rmin (Rmax (fl (key f * Rabs (key l))) (key f)) (key ctol))))
    ls (relax_lower (num_ops lg) f ctol ls).
Proof.
  intros lg f ctol ls Ff Fc Pc Pf H. unfold relax_lower.
  change (tlt (num_ops lg) (t0 (num_ops lg)) f) with (nlt nzero f).
  destruct (nlt nzero f) eqn:E.
  - apply nlt_iff in E. destruct E as (_ & N & P). rewrite key_nzero in P. apply Forall2_map_same.
    eapply Forall_impl; [|exact H]. intros l Fl.
    destruct (relax_low lg (nopp f) ctol l) as (A & B & C); auto; [now rewrite nfin_opp|rewrite key_opp; lra|].
    change (topp (num_ops lg) f) with (nopp f). rewrite key_opp, Rabs_Ropp, (Rabs_pos_eq (key f)) in C by lra.
    repeat split; auto; try lra; try now apply nfin_nnan.
  - assert (Z : key f = 0).
    { apply nlt_false in E; [|reflexivity|now apply nfin_nnan]. rewrite key_nzero in E. lra. }
    rewrite <- (map_id ls) at 2. apply Forall2_map_same. eapply Forall_impl; [|exact H]. intros l Fl.
    pose proof (nfin_nnan _ Fl). repeat split; auto; try lra. apply fl_le_key; [assumption|lra].
Qed.
Theorem C31_relaxed_upper :
  forall lg (f ctol : num) us, nfin f = true -> nfin ctol = true -> 0 < key ctol -> 0 <= key f -> Forall (fun u => nfin u = true) us ->
  Forall2 (fun u u' => num_le u u' /\ key u' <= fl (key u + key ctol) /\
      (key f = 0 -> u' = u) /\
      (0 < key f -> key u' = fl (key u + Rmin (Rmax (fl (key f * Rabs (key u))) (key f)) (key ctol))))
    us (relax_upper (num_ops lg) f ctol us).
Proof.
  intros lg f ctol us Ff Fc Pc Pf H. unfold relax_upper.
  change (tlt (num_ops lg) (t0 (num_ops lg)) f) with (nlt nzero f).
  destruct (nlt nzero f) eqn:E.
  - apply nlt_iff in E. destruct E as (_ & N & P). rewrite key_nzero in P. apply Forall2_map_same.
    eapply Forall_impl; [|exact H]. intros u Fu.
    destruct (relax_upp lg f ctol u) as (A & B & C); auto.
    rewrite (Rabs_pos_eq (key f)) in C by lra.
    repeat split; auto; try lra; try now apply nfin_nnan.
  - assert (Z : key f = 0).
    { apply nlt_false in E; [|reflexivity|now apply nfin_nnan]. rewrite key_nzero in E. lra. }
    rewrite <- (map_id us) at 2. apply Forall2_map_same. eapply Forall_impl; [|exact H]. intros u Fu.
    pose proof (nfin_nnan _ Fu). repeat split; auto; try lra. apply fl_ge_key; [assumption|lra].
Qed.
(** For bounds of large size nothing is gained: the relaxation is lost in
    rounding (with the default tolerance 1e-4 from about 1e12 on). *)
Theorem C31_strictly_larger_refuted :
  exists l : num, nfin l = true /\ forall lg,
  match relax_lower (num_ops lg) (nrat 1 100000000) (nrat 1 10000) [l] with [l'] => neqb l' l | _ => false end = true.
Proof. exists (nofZ 10000000000000). split; [vm_compute; reflexivity|]. intros lg. vm_compute. reflexivity. Qed.
Example C31_ex : forall lg,
  match relax_lower (num_ops lg) (nrat 1 100000000) (nrat 1 10000) [nofZ (-3)] with [l'] => nlt l' (nofZ (-3)) | _ => false end = true.
Proof. intros lg. vm_compute. reflexivity. Qed.

(** * C32: slacks *)
Lemma s_min_key lg eps dmin mu : nfin eps = true -> nfin mu = true -> 0 < key mu ->
  key (s_min (num_ops lg) eps dmin mu) = smallest_slack eps dmin mu.
Proof.
  intros Fe Fm M. unfold s_min, smallest_slack. change (tmin (num_ops lg)) with nmin.
  cbn [teq t0 t1 tmul num_ops].
  assert (N1 : nnan none = false) by (apply nfin_nnan, none_fin).
  assert (F : nfin (nmin none mu) = true) by (unfold nmin; destruct (nlt mu none); [assumption|apply none_fin]).
  destruct (nmul_fin eps (nmin none mu) Fe F) as [A B].
  rewrite nmin_key in B by (auto; now apply nfin_nnan). rewrite key_none in B.
  destruct (neqb (nmul eps (nmin none mu)) nzero) eqn:E.
  - apply neqb_iff in E. destruct E as (_ & _ & E). rewrite key_nzero in E. destruct (Req_EM_T _ 0); [reflexivity|congruence].
  - apply neqb_false in E; [|assumption|reflexivity]. rewrite key_nzero in E. destruct (Req_EM_T _ 0); [congruence|assumption].
Qed.

(** Whatever the iterate, all slacks the algorithm works with are positive
    numbers; a slack is changed exactly if it is below the threshold, never made
    smaller, and not made larger than its (nonnegative) value plus
    slack_move*max(1,|bound|); the reported number of corrections is the number
    of slacks below the threshold. *)
Theorem C32_slacks_positive :
  forall lg eps dmin mu move es,
  nfin eps = true -> 0 < key eps <= 1 -> nfin dmin = true -> 0 < key dmin ->
  nfin mu = true -> 0 < key mu -> nfin move = true -> 0 < key move -> Forall usable es ->
  let r := safe_slack (num_ops lg) eps dmin mu move es in
  let thr := smallest_slack eps dmin mu in
  0 < thr /\
  Forall2 (fun e s' => positive s' /\ key (s_val e) <= key s' /\
      (thr <= key (s_val e) -> s' = s_val e) /\
      (key (s_val e) < thr -> key s' <= largest_slack move (s_bound e) (s_val e))) es (snd r) /\
  fst r = length (filter (fun e => Rlt_bool (key (s_val e)) thr) es).
Proof.
  intros lg eps dmin mu move es Fe [Pe Pe1] Fd Pd Fm Pm Fv Pv U r thr.
  destruct (smin_pos lg eps dmin) with (mu := mu) as [S1 S2]; auto.
  destruct (safe_slack_num lg eps dmin) with (mu := mu) (move := move) (es := es) as [A B]; auto.
  rewrite s_min_key in * by assumption. fold thr in S2, A, B. split; [assumption|]. split; [|assumption].
  unfold r. rewrite A. apply Forall2_map_same. eapply Forall_impl; [|exact U]. intros e (E1 & E2 & E3).
  pose proof (nfin_nnan _ E1) as N1.
  destruct (correct_slack_num lg mu move (s_min (num_ops lg) eps dmin mu) e Fm Pm Fv Pv S1) as [C D]; auto.
  { rewrite s_min_key; assumption. }
  rewrite s_min_key in C, D by assumption. fold thr in C, D.
  destruct (Rlt_bool_spec (key (s_val e)) thr) as [L|L].
  - destruct (D L) as (D1 & D2 & [D3 D4] & _). pose proof (Rmax_l (key (s_val e)) 0). split; [split; assumption|].
    split; [lra|]. split; [lra|]. intros _. exact D4.
  - split; [split; [assumption|lra]|]. split; [lra|]. split; [reflexivity|lra].
Qed.
Example C32_ex : forall lg,
  let es := [SL (nofZ 3) (nofZ 1) (nofZ 1); SL nzero (nofZ 5) (nofZ 2); SL (nofZ (-1)) (nofZ 1) nzero] in
  match safe_slack (num_ops lg) deps ddmin (nofZ 1) (nrat 1 1000) es with
  | (n, [a; b; c]) => Nat.eqb n 2 && neqb a (nofZ 3) && nlt nzero b && neqb c (nrat 1 1000) | _ => false end = true.
Proof. intros lg. vm_compute. reflexivity. Qed.

(** With exact arithmetic the new value is
    min(max(mu/z, eps*min(1,mu)), max(s,0) + slack_move*max(1,|b|)). *)
Theorem C32_slacks_exact :
  forall lg eps dmin mu move es, 0 < eps -> 0 < mu -> 0 < move ->
  snd (safe_slack (R_ops lg) eps dmin mu move es) = map (safe_value mu move (eps * Rmin 1 mu)) es.
Proof. intros. now apply safe_slack_R. Qed.

(** The option's range includes slack_move = 0; then a slack can stay 0. *)
Theorem C32_zero_move_refuted :
  forall lg, match snd (safe_slack (num_ops lg) deps ddmin (nofZ 1) nzero [SL nzero (nofZ 1) (nofZ 1)]) with
             | [s] => nlt nzero s | _ => true end = false.
Proof. intros lg. vm_compute. reflexivity. Qed.

(** When the trial point is accepted, the bounds are moved so that the corrected
    slacks are the distances from the bounds: outwards only, at most by
    slack_move*max(1,|bound|) beyond the point, and not at all where no slack
    was corrected. [zs]: multipliers. The trial slacks were requested once at
    this point before. Exact arithmetic. *)
Definition entries (lg : R -> R) (xs ls zs : list R) : list (sl (T:=R)) :=
  map (fun t => SL (slack_low (R_ops lg) (fst (fst t)) (snd (fst t))) (snd (fst t)) (snd t)) (combine (combine xs ls) zs).
Lemma nth_map2 {A B C} (f : A -> B -> C) l m i a b c : (i < length l)%nat -> (i < length m)%nat ->
  nth i (map2 f l m) c = f (nth i l a) (nth i m b).
Proof. revert m i; induction l as [|x l IH]; intros [|y m] [|i]; cbn; intros; try lia; auto. apply IH; lia. Qed.
Lemma map2_length {A B C} (f : A -> B -> C) l m : length (map2 f l m) = Nat.min (length l) (length m).
Proof. revert m; induction l as [|x l IH]; intros [|y m]; cbn; auto. Qed.

Theorem C32_bounds_follow_slacks :
  forall lg eps dmin mu move xs ls zs tag s0 others x0 es,
  0 < eps -> 0 < mu -> 0 < move -> length ls = length xs -> length zs = length xs ->
  hit (ts_trial s0) tag = None -> hit (ts_curr s0) tag = None ->
  (forall t, t = tag -> es t = entries lg xs ls zs /\ x0 t = xs) ->
  let O := R_ops lg in
  let '(s1, slacks) := trial_slack O eps dmin mu move es tag s0 in
  let '(s2, ls') := accept_low O eps dmin mu move es others x0 tag ls s1 in
  forall i, (i < length xs)%nat ->
    let x := nth i xs 0 in let l := nth i ls 0 in let l' := nth i ls' 0 in
    0 < nth i slacks 0 /\ x - l' = nth i slacks 0 /\ l' <= l /\
    l - l' <= move * Rmax 1 (Rabs l) + Rmax 0 (l - x) /\
    (eps * Rmin 1 mu <= x - l -> l' = l).
Proof.
  intros lg eps dmin mu move xs ls zs tag s0 others x0 es He Hm Hv L1 L2 H1 H2 HE O. subst O.
  destruct (HE tag eq_refl) as [E1 E2]. unfold trial_slack at 1. cbn [ts_trial ts_curr]. rewrite H1, H2, E1.
  destruct (safe_slack_R lg eps dmin mu move (entries lg xs ls zs) He Hm Hv) as [A B].
  destruct (safe_slack (R_ops lg) eps dmin mu move (entries lg xs ls zs)) as [n r] eqn:ES. cbn [fst snd] in A, B.
  destruct (smin_R lg eps dmin mu He Hm) as [_ SP]. set (smin := eps * Rmin 1 mu) in *.
  assert (LE : length (entries lg xs ls zs) = length xs).
  { unfold entries. rewrite map_length, !combine_length. lia. }
  assert (Lr : length r = length xs) by (rewrite A, map_length; exact LE).
  assert (NT : forall i, (i < length xs)%nat ->
    nth i (entries lg xs ls zs) (SL 0 0 0) = SL (nth i xs 0 - nth i ls 0) (nth i ls 0) (nth i zs 0)).
  { intros i I. unfold entries.
    rewrite (nth_indep _ _ (SL (slack_low (R_ops lg) 0 0) 0 0)) by (fold (entries lg xs ls zs); lia).
    change (SL (slack_low (R_ops lg) 0 0) 0 0) with ((fun t : R * R * R => SL (slack_low (R_ops lg) (fst (fst t)) (snd (fst t))) (snd (fst t)) (snd t)) ((0, 0), 0)).
    rewrite map_nth, !combine_nth by (rewrite ?combine_length; lia). cbn [fst snd]. unfold slack_low. cbn [tadd topp R_ops]. f_equal; try ring. }
  assert (NR : forall i, (i < length xs)%nat -> nth i r 0 = safe_value mu move smin (SL (nth i xs 0 - nth i ls 0) (nth i ls 0) (nth i zs 0))).
  { intros i I. rewrite A. rewrite (nth_indep _ 0 (safe_value mu move smin (SL 0 0 0))) by (rewrite map_length; lia).
    rewrite map_nth, NT by assumption. reflexivity. }
  unfold accept_low. cbn [ts_num]. destruct (Nat.ltb_spec 0 (n + others)) as [K|K].
  - unfold trial_slack. cbn [ts_trial ts_curr hit]. rewrite Z.eqb_refl, E2. intros i I. cbv zeta.
    rewrite (nth_map2 _ xs r i 0 0 0) by lia. unfold new_low. cbn [tsub R_ops]. rewrite NR by assumption.
    set (x := nth i xs 0). set (l := nth i ls 0). set (z := nth i zs 0).
    assert (M : move <= move * Rmax 1 (Rabs l)) by (pose proof (Rmax_l 1 (Rabs l)); nra).
    unfold safe_value. cbn [s_val s_mult s_bound]. set (bb := move * Rmax 1 (Rabs l)) in *. clearbody bb.
    set (q := Rmax (mu / z) smin). assert (Q : smin <= q) by apply Rmax_r.
    pose proof (Rmax_l (x - l) 0). pose proof (Rmax_r (x - l) 0).
    assert (X : Rmax (x - l) 0 = (x - l) + Rmax 0 (l - x)) by (unfold Rmax; repeat destruct Rle_dec; lra).
    destruct (Rlt_dec (x - l) smin) as [L|L].
    + assert (0 < Rmin q (Rmax (x - l) 0 + bb)) by (apply Rmin_glb_lt; lra).
      pose proof (Rmin_r q (Rmax (x - l) 0 + bb)).
      assert (x - l <= Rmin q (Rmax (x - l) 0 + bb)) by (apply Rmin_glb; lra).
      repeat split; lra.
    + pose proof (Rmax_l 0 (l - x)). repeat split; lra.
  - assert (n = 0)%nat as -> by lia. symmetry in B. apply length_zero_iff_nil in B.
    assert (NO : forall i, (i < length xs)%nat -> smin <= nth i xs 0 - nth i ls 0).
    { intros i I. specialize (NT i I). apply Rnot_lt_le. intros L.
      assert (IN : In (nth i (entries lg xs ls zs) (SL 0 0 0)) (filter (fun e => Rlt_bool (s_val e) smin) (entries lg xs ls zs))).
      { apply filter_In. split; [apply nth_In; lia|]. rewrite NT. cbn [s_val]. now apply Rlt_bool_true. }
      rewrite B in IN. contradiction. }
    intros i I. cbv zeta. specialize (NO i I). rewrite NR by assumption. unfold safe_value. cbn [s_val s_mult s_bound].
    set (x := nth i xs 0) in *. set (l := nth i ls 0) in *.
    destruct (Rlt_dec (x - l) smin); [lra|]. pose proof (Rmax_l 0 (l - x)). pose proof (Rmax_l 1 (Rabs l)).
    assert (0 <= move * Rmax 1 (Rabs l)) by nra. repeat split; lra.
Qed.

(** If the slacks of the trial point are requested a second time before it is
    accepted, the counter of corrections is reset and the bounds are not moved:
    the slack the algorithm goes on with is then not the distance from its bound. *)
Theorem C32_second_request_refuted :
  exists (xs ls zs : list num) mu move, forall lg,
  let O := num_ops lg in
  let es := fun _ : Z => map (fun t => SL (slack_low O (fst (fst t)) (snd (fst t))) (snd (fst t)) (snd t)) (combine (combine xs ls) zs) in
  let s1 := fst (trial_slack O deps ddmin mu move es 7 (TS None None 0)) in
  let '(s2, slacks) := trial_slack O deps ddmin mu move es 7 s1 in
  let ls' := snd (accept_low O deps ddmin mu move es 0 (fun _ => xs) 7 ls s2) in
  match xs, ls', slacks with [x], [l'], [s] => nlt nzero s && negb (neqb (slack_low O x l') s) | _, _, _ => false end = true /\
  Nat.eqb (ts_num s1) 1 = true /\ Nat.eqb (ts_num s2) 0 = true.
Proof.
  exists [nofZ 1], [nofZ 1], [nofZ 1], (nofZ 1), (nrat 1 1000). intros lg.
  repeat split; vm_compute; reflexivity.
Qed.

(** * C46: honor_original_bounds *)
Theorem C46_final_point_in_bounds :
  forall lg factor (v : var (T:=num)), nfin (v_x v) = true -> nnan factor = false -> 0 < key factor ->
  (forall l, v_lo v = Some l -> nfin l = true) -> (forall u, v_up v = Some u -> nfin u = true) ->
  (forall l u, v_lo v = Some l -> v_up v = Some u -> key l <= key u) ->
  let x' := honor (num_ops lg) true factor v in
  nfin x' = true /\
  (forall l, v_lo v = Some l -> num_le l x') /\ (forall u, v_up v = Some u -> num_le x' u) /\
  ((forall l, v_lo v = Some l -> key l <= key (v_x v)) -> (forall u, v_up v = Some u -> key (v_x v) <= key u) -> key x' = key (v_x v)).
Proof.
  intros lg factor [x lo up] Fx Nf Pf Hl Hu Hb. cbn [v_x v_lo v_up] in *.
  assert (SUB : forall y m : num, nfin y = true -> nfin m = true -> nfin (nadd (nsub y y) m) = true /\ key (nadd (nsub y y) m) = key m).
  { intros y m Fy Fm. assert (K : key (nsub y y) = 0 /\ nfin (nsub y y) = true).
    { destruct (nsub_fin y y Fy Fy) as [A B]. rewrite Rminus_diag_eq, fl_0 in B by reflexivity. split; [assumption|].
      apply key_strict_finite; [assumption|]. rewrite B. pose proof big_pos. lra. }
    destruct K as [K1 K2]. destruct (nadd_fin _ m K2 Fm) as [A B]. rewrite K1, Rplus_0_l, fl_key in B by now apply nfin_nnan.
    split; [|assumption]. apply key_strict_finite; [assumption|]. rewrite B. pose proof (key_finite_lt _ Fm) as G. apply Rabs_def2 in G. lra. }
  assert (MX : forall a b : num, nfin a = true -> nfin b = true -> nfin (nmax a b) = true) by (intros a b A B; unfold nmax; destruct (nlt a b); assumption).
  assert (MN : forall a b : num, nfin a = true -> nfin b = true -> nfin (nmin a b) = true) by (intros a b A B; unfold nmin; destruct (nlt b a); assumption).
  unfold honor. change (tlt (num_ops lg) (t0 (num_ops lg)) factor) with (nlt nzero factor).
  rewrite nlt_true by (auto; rewrite key_nzero; assumption). cbn [andb v_x v_lo v_up].
  set (x1 := match lo with Some l => _ | None => x end).
  assert (X1 : nfin x1 = true /\ (forall l, lo = Some l -> key x1 = Rmax (key x) (key l)) /\ (lo = None -> key x1 = key x)).
  { unfold x1. destruct lo as [l|].
    - change (tmax (num_ops lg)) with nmax. change (tadd (num_ops lg)) with nadd. change (tsub (num_ops lg)) with nsub.
      specialize (Hl l eq_refl). destruct (SUB x (nmax x l) Fx (MX _ _ Fx Hl)) as [A B]. split; [assumption|]. split; [|discriminate].
      intros ? [= <-]. rewrite B, nmax_key by now apply nfin_nnan. reflexivity.
    - split; [assumption|]. split; [discriminate|reflexivity]. }
  destruct X1 as (X1 & X2 & X3). clearbody x1.
  destruct up as [u|].
  - change (tmin (num_ops lg)) with nmin. change (tadd (num_ops lg)) with nadd. change (tsub (num_ops lg)) with nsub.
    specialize (Hu u eq_refl). destruct (SUB x1 (nmin x1 u) X1 (MN _ _ X1 Hu)) as [A B].
    rewrite nmin_key in B by now apply nfin_nnan. cbv zeta. split; [assumption|].
    split; [|split].
    + intros l El. pose proof (Hl l El) as Fl. repeat split; try now apply nfin_nnan. rewrite B, (X2 l El). apply Rmin_glb; [apply Rmax_r|]. now apply Hb.
    + intros ? [= <-]. repeat split; try now apply nfin_nnan. rewrite B. apply Rmin_r.
    + intros G1 G2. rewrite B. specialize (G2 u eq_refl). destruct lo as [l|].
      * rewrite (X2 l eq_refl). rewrite Rmax_left by now apply G1. now apply Rmin_left.
      * rewrite X3 by reflexivity. now apply Rmin_left.
  - cbv zeta. split; [assumption|]. split; [|split; [discriminate|]].
    + intros l El. pose proof (Hl l El) as Fl. repeat split; try now apply nfin_nnan. rewrite (X2 l El). apply Rmax_r.
    + intros G1 _. destruct lo as [l|]; [rewrite (X2 l eq_refl); apply Rmax_left; now apply G1|now apply X3].
Qed.
(** With bound_relax_factor = 0 nothing is done although the bounds may have
    been moved during the solve (C32): the point may violate the user's bounds. *)
Theorem C46_without_relaxation_refuted :
  exists x l : num, forall lg, nlt (honor (num_ops lg) true nzero (VAR x (Some l) None)) l = true.
Proof. exists (nofZ 0), (nofZ 1). intros lg. vm_compute. reflexivity. Qed.
Example C46_ex : forall lg, neqb (honor (num_ops lg) true (nrat 1 100000000) (VAR (nofZ 0) (Some (nofZ 1)) (Some (nofZ 4)))) (nofZ 1) = true.
Proof. intros lg. vm_compute. reflexivity. Qed.

(** * C47: bound multipliers stay near mu/slack *)
(** For kappa_sigma >= 1 every bound multiplier of an accepted iterate is the
    value in [mu/(kappa s), kappa mu/s] nearest to the one computed, and the
    number reported is the largest change. Exact arithmetic; [m_c] is the
    complementarity slack times multiplier. *)
Theorem C47_multipliers_clamped :
  forall lg kappa mu ms, 1 <= kappa -> 0 < mu -> Forall (fun m => 0 < m_s m /\ m_c m = m_s m * m_z m) ms ->
  let r := correct_mult (R_ops lg) kappa mu ms in
  Forall2 (fun m z' => z' = clamp (mu / (kappa * m_s m)) (kappa * mu / m_s m) (m_z m) /\
                       mu / kappa <= m_s m * z' <= kappa * mu /\ Rabs (z' - m_z m) <= fst r) ms (snd r) /\
  (fst r = 0 <-> snd r = map m_z ms) /\
  (fst r = 0 \/ exists m, In m ms /\ fst r = Rabs (clamp (mu / (kappa * m_s m)) (kappa * mu / m_s m) (m_z m) - m_z m)).
Proof.
  intros lg kappa mu ms Hk Hm H r. destruct (correct_mult_R lg kappa mu ms Hk Hm H) as (A & B & C).
  assert (HS : forall m, In m ms -> 0 < m_s m /\ m_c m = m_s m * m_z m) by now apply Forall_forall.
  fold r in A, B, C. rewrite A. split; [|split].
  - apply Forall2_map_same. apply Forall_forall. intros m I. split; [reflexivity|]. split; [|now apply B].
    destruct (HS m I) as [P _]. pose proof (lowupp kappa mu Hk Hm m P) as [W1 W2].
    assert (L : lowb kappa mu m <= z' kappa mu m <= uppb kappa mu m).
    { unfold z', clamp. split; [apply Rmax_l|]. apply Rmax_lub; [assumption|apply Rmin_l]. }
    destruct L as [L1 L2]. apply (Rmult_le_compat_l (m_s m)) in L1; [|lra]. apply (Rmult_le_compat_l (m_s m)) in L2; [|lra].
    unfold lowb in L1. unfold uppb in L2.
    replace (m_s m * (mu / (kappa * m_s m))) with (mu / kappa) in L1 by (field; lra).
    replace (m_s m * (kappa * mu / m_s m)) with (kappa * mu) in L2 by (field; lra). lra.
  - split.
    + intros E. apply map_ext_in. intros m I. specialize (B m I). rewrite E in B.
      destruct (Req_dec (z' kappa mu m - m_z m) 0) as [Q|Q]; [lra|]. apply Rabs_pos_lt in Q. lra.
    + intros E. destruct C as [C|(m & I & C)]; [assumption|].
      assert (Q : z' kappa mu m = m_z m).
      { clear - E I. induction ms as [|a l IH]; [contradiction|]. cbn in E. injection E as E1 E2. destruct I as [->|I]; auto. }
      rewrite Q, Rminus_diag_eq, Rabs_R0 in C by reflexivity. auto.
  - destruct C as [C|(m & I & C)]; [now left|right]. exists m. split; [assumption|]. symmetry. exact C.
Qed.
(** kappa_sigma < 1 switches the correction off. *)
Theorem C47_switched_off :
  forall lg kappa mu ms, kappa < 1 -> correct_mult (R_ops lg) kappa mu ms = (0, map m_z ms).
Proof. intros lg kappa mu ms H. unfold correct_mult. cbn [tlt t1 R_ops]. rewrite Rlt_bool_true by assumption. reflexivity. Qed.
Example C47_ex : Forall (fun m : mlt (T:=R) => 0 < m_s m /\ m_c m = m_s m * m_z m) [ML 5 2 10; ML 0 1 0].
Proof. repeat constructor; cbn; lra. Qed.

Print Assumptions C30_start_point_inside.
Print Assumptions C31_relaxed_lower.
Print Assumptions C31_relaxed_upper.
Print Assumptions C32_slacks_positive.
Print Assumptions C32_slacks_exact.
Print Assumptions C32_bounds_follow_slacks.
Print Assumptions C32_second_request_refuted.
Print Assumptions C46_final_point_in_bounds.
Print Assumptions C47_multipliers_clamped.
