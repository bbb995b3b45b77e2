(** C78: the value the barrier parameter gets, exactly: the oracle's answer, the safeguard and
    the clipping. *)
From Coq Require Import Reals List Bool Arith Lra Lia.
From Verif Require Import AmuModel AmuSpec AmuProofs AmuProofs2 AmuProps.
Import ListNotations.
Open Scope R_scope.

(** * Specification *)
Section Spec.
Variable pt : Type.
Variable q : cq pt.
Variable o : opts.

(** The first call that computed a new barrier parameter in free mode or at a switch to fixed
    mode. *)
Definition first_free (l : list (step pt)) : option (step pt) :=
  find (fun t => t_ret t && (s_free (t_before t) || s_free (t_after t))) l.

(** The safeguard after the steps [l], the last of which left the state [s]: with
    adaptive_mu_safeguard_factor, the relative reduction of the averaged infeasibilities since
    the first such call; for the kkt-error strategy at most the smallest of the last reference
    values. *)
Definition safeguard (l : list (step pt)) (s : st pt) : R :=
  if Req_EM_T (o_safe o) 0 then 0 else
  match first_free l with
  | None => 0
  | Some t0 =>
      let x := s_cur s in let x0 := s_cur (t_after t0) in
      let base := Rmax (o_safe o * (q_dinf q x / Rmax 1 (q_dinf q x0)))
                       (o_safe o * (q_pinf q x / Rmax 1 (q_pinf q x0))) in
      match o_glob o with
      | KKT_ERROR => fold_right Rmin base
          (map (q_kkt q) (skipn (length (accepted l) - o_rediters o) (accepted l)))
      | _ => base
      end
  end.
End Spec.
Arguments first_free {pt}.

Lemma min_ref_fold : forall r m base, min_ref_val r = Some m -> Rmin base m = fold_right Rmin base r.
Proof.
  intros [|e r] m base H; [discriminate|]. injection H as <-. cbn [fold_right].
  assert (X : forall r e, Rmin base (fold_left Rmin r e) = Rmin e (fold_right Rmin base r)).
  { clear. induction r as [|a r IH]; intros e; cbn [fold_left fold_right]; [apply Rmin_comm|].
    rewrite IH. rewrite Rmin_assoc. reflexivity. }
  apply X.
Qed.

Section C78.
Variable pt : Type.
Variable pw : R -> R -> R.
Variable q : cq pt.
Variable o : opts.
Variable p : pt.
Notation hist := (hist pw q o p).

Definition upd_init (v0 : R) (v : R) : R := if Rlt_dec v0 0 then Rmax 1 v else v0.
(** The value of the safeguard at a state *)
Definition low_at (s : st pt) (refs : list R) : R :=
  if Req_EM_T (o_safe o) 0 then 0 else
  let base := Rmax (o_safe o * (q_dinf q (s_cur s) / s_idi s)) (o_safe o * (q_pinf q (s_cur s) / s_ipi s)) in
  match o_glob o with KKT_ERROR => fold_right Rmin base refs | _ => base end.

Lemma lower_safe_exact s s1 l : lower_safe q o s = Some (s1, l) ->
  (o_safe o <> 0 -> s_idi s1 = upd_init (s_idi s) (q_dinf q (s_cur s)) /\ s_ipi s1 = upd_init (s_ipi s) (q_pinf q (s_cur s))) /\
  (o_safe o = 0 -> s1 = s) /\
  l = low_at s1 (s_refs s1) /\ s_refs s1 = s_refs s /\ s_cur s1 = s_cur s /\
  s_mumin s1 = s_mumin s /\ s_mumax s1 = s_mumax s /\ s_free s1 = s_free s.
Proof.
  unfold lower_safe, low_at. destruct (Req_EM_T (o_safe o) 0) as [Z|Z].
  { intros H; injection H as <- <-. repeat match goal with |- _ /\ _ => split end; auto; intros; contradiction. }
  fold (upd_init (s_idi s) (q_dinf q (s_cur s))). fold (upd_init (s_ipi s) (q_pinf q (s_cur s))).
  destruct (o_glob o).
  - destruct (min_ref_val _) as [m|] eqn:M; [|discriminate]. intros H; injection H as <- <-.
    cbn [set_init s_idi s_ipi s_refs s_cur s_mumin s_mumax s_free] in *. repeat match goal with |- _ /\ _ => split end; auto; try (intros; contradiction).
    apply min_ref_fold. exact M.
  - intros H; injection H as <- <-. cbn [set_init s_idi s_ipi s_refs s_cur s_mumin s_mumax s_free] in *.
    repeat match goal with |- _ /\ _ => split end; auto; intros; contradiction.
  - intros H; injection H as <- <-. cbn [set_init s_idi s_ipi s_refs s_cur s_mumin s_mumax s_free] in *.
    repeat match goal with |- _ /\ _ => split end; auto; intros; contradiction.
Qed.

Lemma step_exact c s b s' ev : bounded q -> s_nob s = false -> update pw q o c s = Ret b s' ev ->
  (o_safe o <> 0 ->
     if b && (s_free s || s_free s')
     then s_idi s' = upd_init (s_idi s) (q_dinf q (s_cur s')) /\ s_ipi s' = upd_init (s_ipi s) (q_pinf q (s_cur s'))
     else s_idi s' = s_idi s /\ s_ipi s' = s_ipi s) /\
  (b = true -> s_free s' = true ->
     exists m, c_free c (Rmax (s_mumin s') (o_mutarget o)) (s_mumax s') = Some m /\
       s_mu s' = Rmin (Rmax (Rmax m (s_mumin s')) (low_at s' (s_refs s'))) (s_mumax s')) /\
  (s_free s = true -> s_free s' = false ->
     exists m, m = match (if o_hasfix o then c_fix c (Rmax (s_mumin s') (o_mutarget o)) (s_mumax s') else None) with
                   | Some v => v | None => o_initfact o * q_avrg q (s_cur s') end /\
       s_mu s' = Rmin (Rmax (Rmin (Rmax m (low_at s' (s_refs s'))) (/ 10 * 10 ^ 20)) (s_mumin s')) (s_mumax s')).
Proof.
  intros B N H. pose proof (@update_cases pt pw q o c s _ _ _ B N H) as U.
  destruct U as [s1 K1 K2 K3 M F1 E|F K T L Eb Es|F K L Eb Es R|s2 s3 m F K A M Eb Es R].
  - destruct (@remember_spec pt q o _ _ M) as (r & G & E1 & _).
    cbn [s_mumin s_mumax s_idi s_ipi s_refs s_chk s_nob s_free s_acc s_mu s_tau s_cur set_free pre] in E1.
    destruct E as [(_ & -> & -> & _)|(m & s2 & l & Cf & L & -> & -> & _)].
    + subst s1. cbn [set_tau s_idi s_ipi s_free andb s_mu s_mumin]. split; [|split]; [intros; split; reflexivity|discriminate|].
      intros _ X; discriminate.
    + destruct (lower_safe_exact _ _ _ L) as (I & Z & -> & Rf & Cu & Mn & Mx & Fr).
      subst s1. cbn [set_tau s_idi s_ipi s_free andb s_mu s_mumin s_mumax s_cur s_refs] in *.
      cbn [set_mu s_idi s_ipi s_free s_cur s_mumin s_mumax s_refs s_mu]. rewrite Fr, orb_true_r, Cu, Mn, Mx.
      split; [|split]; [exact I| |intros _ X; discriminate].
      intros _ _. exists m. split; [exact Cf|]. unfold low_at. cbn [set_mu s_idi s_ipi s_cur]. reflexivity.
  - subst b s'. cbn [pre s_free] in *. rewrite F. cbn [andb orb pre s_idi s_ipi]. split; [|split]; [intros; split; reflexivity| |]; intros; congruence.
  - subst b s'. cbn [pre s_free set_tau set_mu] in *. rewrite F. cbn [andb orb pre s_idi s_ipi]. split; [|split]; [intros; split; reflexivity| |]; intros; congruence.
  - assert (X : s_mumin s2 = new_min o c (s_mumin s) /\ s_mumax s2 = new_max q o c (s_mumax s) /\ s_free s2 = false /\
                s_idi s2 = s_idi s /\ s_ipi s2 = s_ipi s).
    { destruct A as [(_ & ->)|(_ & x & _ & -> & _)]; cbn; auto. }
    destruct X as (X1 & X2 & X3 & X4 & X5).
    unfold new_fixed_mu in M. destruct (lower_safe q o s2) as [[s3' l]|] eqn:L; [|discriminate].
    assert (E3 : s3' = s3) by (apply (f_equal (fun x => match x with Some (a, _) => a | None => s3 end)) in M; exact M).
    assert (Em := f_equal (fun x => match x with Some (_, a) => a | None => 0 end) M). cbv beta iota in Em. clear M. subst s3'.
    destruct (lower_safe_exact _ _ _ L) as (I & Z & El & Rf & Cu & Mn & Mx & Fr). subst b s'.
    cbn [set_tau set_mu s_idi s_ipi s_free s_cur s_mumin s_mumax s_refs s_mu pre] in *. rewrite F. cbn [orb andb].
    rewrite Cu. split; [|split].
    + rewrite <- X4, <- X5. exact I.
    + intros _ Y. congruence.
    + intros _ _. eexists. split; [reflexivity|]. rewrite Mn, Mx in Em. rewrite Mn, Mx. rewrite <- Em, El. unfold low_at.
      cbn [set_tau set_mu s_idi s_ipi s_cur s_refs]. reflexivity.
Qed.

Lemma hist_init l s : bounded q -> hist l s -> o_safe o <> 0 ->
  match first_free l with
  | None => s_idi s = -1 /\ s_ipi s = -1
  | Some t0 => s_idi s = Rmax 1 (q_dinf q (s_cur (t_after t0))) /\ s_ipi s = Rmax 1 (q_pinf q (s_cur (t_after t0)))
  end.
Proof.
  intros B H Sf. induction H as [|l s c b s' ev H IH E]; [split; reflexivity|].
  destruct (step_exact c s b s' ev B (i_nob (hist_inv B H)) E) as (X & _). specialize (X Sf).
  assert (Fs : first_free (l ++ [Step c s b s' ev]) = match first_free l with
     | Some t0 => Some t0 | None => if b && (s_free s || s_free s') then Some (Step c s b s' ev) else None end).
  { unfold first_free. clear. induction l as [|a l IH]; cbn [find app t_ret t_before t_after].
    - destruct (b && (s_free s || s_free s')); reflexivity.
    - destruct (t_ret a && (s_free (t_before a) || s_free (t_after a))); [reflexivity|exact IH]. }
  rewrite Fs. clear Fs. destruct (first_free l) as [t0|].
  - destruct IH as (IH1 & IH2).
    assert (P : forall v w, upd_init (Rmax 1 v) w = Rmax 1 v).
    { intros v w. unfold upd_init. destruct (Rlt_dec (Rmax 1 v) 0) as [Q|Q]; [pose proof (Rmax_l 1 v); lra|reflexivity]. }
    destruct (b && (s_free s || s_free s')); destruct X as (-> & ->); rewrite ?IH1, ?IH2, ?P; auto.
  - destruct IH as (IH1 & IH2).
    assert (P : forall w, upd_init (-1) w = Rmax 1 w) by (intros w; unfold upd_init; destruct (Rlt_dec (-1) 0); [reflexivity|lra]).
    destruct (b && (s_free s || s_free s')); destruct X as (-> & ->); rewrite ?IH1, ?IH2, ?P; cbn [t_after]; auto.
Qed.

Lemma low_is_safeguard l t s : bounded q -> hist (l ++ [t]) s -> t_ret t = true ->
  s_free (t_before t) = true \/ s_free s = true ->
  low_at s (s_refs s) = @safeguard pt q o (l ++ [t]) s.
Proof.
  intros B H Rt Fr. unfold low_at, safeguard. destruct (Req_EM_T (o_safe o) 0) as [Z|Z]; [reflexivity|].
  pose proof (hist_init _ _ B H Z) as I. pose proof (hist_inv B H) as V.
  destruct (hist_snoc_inv l t H) as (s0 & H0 & E1 & E2 & U).
  destruct (first_free (l ++ [t])) as [t0|] eqn:Fs.
  - destruct I as (-> & ->). destruct (o_glob o) eqn:G; try reflexivity. rewrite (i_kkt V G).
    unfold lastn. rewrite map_length, skipn_map. reflexivity.
  - exfalso. unfold first_free in Fs. pose proof (find_none _ _ Fs t ltac:(apply in_or_app; right; left; reflexivity)) as Q.
    cbv beta in Q. rewrite Rt, E2 in Q. destruct Fr as [F|F]; rewrite F in Q; rewrite ?orb_true_r in Q; discriminate.
Qed.

Lemma max_is l s M : bounded q -> good_opts pw o ->
  (forall t0, hd_error l = Some t0 -> 0 < q_avrg q (c_pt (t_call t0))) ->
  hist l s -> l <> [] -> max_mu q o (map t_call l) M -> s_mumax s = M.
Proof.
  intros B GO Av H Ne HM. destruct (hist_max B GO Av H Ne) as (HM' & _).
  unfold max_mu in *. destruct (o_mumax o); [congruence|]. destruct (map t_call l); [contradiction|congruence].
Qed.

(** C78: the barrier parameter after a call that ends in free mode is what the oracle returned,
    but at least mu_min, then at least the safeguard, then at most mu_max. *)
Theorem C78_free_mode : forall l t s M,
  bounded q -> good_opts pw o ->
  (forall t0, hd_error (l ++ [t]) = Some t0 -> 0 < q_avrg q (c_pt (t_call t0))) ->
  hist (l ++ [t]) s -> max_mu q o (map t_call (l ++ [t])) M ->
  t_ret t = true -> s_free s = true ->
  let lo := min_mu o (map t_call (l ++ [t])) in
  exists m, c_free (t_call t) (Rmax lo (o_mutarget o)) M = Some m /\
            s_mu s = Rmin (Rmax (Rmax m lo) (@safeguard pt q o (l ++ [t]) s)) M.
Proof.
  intros l t s M B GO Av H HM Rt Fr lo.
  pose proof (max_is _ _ _ B GO Av H ltac:(destruct l; discriminate) HM) as <-.
  rewrite <- (low_is_safeguard _ _ _ B H Rt (or_intror Fr)).
  unfold lo. rewrite <- (i_min (hist_inv B H)).
  destruct (hist_snoc_inv l t H) as (s0 & H0 & E1 & E2 & U).
  destruct (step_exact _ _ _ _ _ B (i_nob (hist_inv B H0)) U) as (_ & X & _). exact (X Rt Fr).
Qed.

(** C78: at a switch to fixed mode it is the answer of the fixed-mode oracle or, without one or
    when it fails, adaptive_mu_monotone_init_factor times the average complementarity; at least
    the safeguard, at most 10^19, then at least mu_min and at most mu_max. *)
Theorem C78_switch_to_fixed : forall l t s M,
  bounded q -> good_opts pw o ->
  (forall t0, hd_error (l ++ [t]) = Some t0 -> 0 < q_avrg q (c_pt (t_call t0))) ->
  hist (l ++ [t]) s -> max_mu q o (map t_call (l ++ [t])) M ->
  s_free (t_before t) = true -> s_free s = false ->
  let lo := min_mu o (map t_call (l ++ [t])) in
  exists m, m = match (if o_hasfix o then c_fix (t_call t) (Rmax lo (o_mutarget o)) M else None) with
                | Some v => v | None => o_initfact o * q_avrg q (s_cur s) end /\
            s_mu s = Rmin (Rmax (Rmin (Rmax m (@safeguard pt q o (l ++ [t]) s)) (/ 10 * 10 ^ 20)) lo) M.
Proof.
  intros l t s M B GO Av H HM F1 Fr lo.
  pose proof (max_is _ _ _ B GO Av H ltac:(destruct l; discriminate) HM) as <-.
  destruct (hist_snoc_inv l t H) as (s0 & H0 & E1 & E2 & U).
  assert (Rt : t_ret t = true).
  { rewrite <- E1 in U. pose proof (hist_inv B H0) as I0. rewrite <- E1 in I0.
    pose proof (@update_cases pt pw q o _ _ _ _ _ B (i_nob I0) U) as C.
    destruct C as [s1 K1 K2 K3 M F2 E|F K T L Eb Es|F K L Eb Es R|s2 s3 m F K A M Eb Es R]; auto.
    exfalso. destruct E as [(_ & _ & -> & _)|(m & s2 & l1 & _ & L & _ & -> & _)].
    - cbn [set_tau s_free] in Fr. congruence.
    - destruct (lower_safe_exact _ _ _ L) as (_ & _ & _ & _ & _ & _ & _ & Fq). cbn [set_tau set_mu s_free] in *. congruence. }
  rewrite <- (low_is_safeguard _ _ _ B H Rt (or_introl F1)).
  unfold lo. rewrite <- (i_min (hist_inv B H)). rewrite E1 in F1.
  destruct (step_exact _ _ _ _ _ B (i_nob (hist_inv B H0)) U) as (_ & _ & X). exact (X F1 Fr).
Qed.
End C78.

(** The safeguard of the example history with a safeguard factor is not zero. *)
Example C78_free_mode_nonvacuous : exists l t s,
  hist ex_pw ex_q ex_o1 tt (l ++ [t]) s /\ t_ret t = true /\ s_free s = true /\ s_mu s = / 2 /\
  (exists l' t', hist ex_pw ex_q ex_o1 tt (l' ++ [t']) ex_s2 /\ s_free (t_before t') = true /\ s_free ex_s2 = false).
Proof.
  exists [], (Step ex_c (initialize ex_o1 tt) true ex_s1 [EReset unit]), ex_s1.
  split; [exact (hist_step _ (hist_nil ex_pw ex_q ex_o1 tt) ex_1)|]. repeat (split; [reflexivity|]).
  eexists [_], _. split; [exact (hist_step _ (hist_step _ (hist_nil ex_pw ex_q ex_o1 tt) ex_1) ex_2)|]. split; reflexivity.
Qed.
Print Assumptions C78_free_mode.
Print Assumptions C78_switch_to_fixed.
