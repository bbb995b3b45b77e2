(** Properties C23 (storage), C24 (compound vectors) and C20 (fraction to the boundary). *)
From Coq Require Import List Bool Arith ZArith Reals Lia Lra.
From Flocq Require Import Core BinarySingleNaN.
From Verif Require Import Num VecModel VecSpec VecProofs VecLift VecReal VecRed VecNum.
Import ListNotations.
Local Open Scope R_scope.

Definition legal_prog {T} (sp : nat -> space) (p : list (nat * op T)) : Prop :=
  Forall (fun io => legal sp (fst io) (snd io)) p.
(** the restrictions [safe] (VecReal.v) hold whenever an operation is executed *)
Fixpoint safe_prog (lg : R -> R) (h : nat -> list R) (p : list (nat * op R)) : Prop :=
  match p with
  | [] => True
  | (i, o) :: p => safe i o (h i) /\ safe_prog lg (lset h i (effect (R_ops lg) h i o)) p
  end.

Lemma effect_ext {T} (O : nops T) h h' i o : (forall j, h j = h' j) -> effect O h i o = effect O h' i o.
Proof. intros H. destruct o; cbn [effect]; rewrite ?H; reflexivity. Qed.
Lemma lset_ext {T} (h h' : nat -> list T) i l : (forall j, h j = h' j) -> forall j, lset h i l j = lset h' i l j.
Proof. intros H j. unfold lset. destruct (Nat.eqb j i); auto. Qed.
Lemma effects_ext {T} (O : nops T) p : forall h h', (forall j, h j = h' j) -> forall j, effects O h p j = effects O h' p j.
Proof.
  induction p as [|[i o] p IH]; intros h h' H j; cbn [effects]; [apply H|]. apply IH. rewrite (effect_ext O h h' i o H). apply lset_ext, H.
Qed.
Lemma safe_prog_ext lg p : forall h h', (forall j, h j = h' j) -> safe_prog lg h p -> safe_prog lg h' p.
Proof.
  induction p as [|[i o] p IH]; intros h h' H; cbn [safe_prog]; [auto|]. intros [K1 K2]. split; [rewrite <- H; exact K1|].
  eapply IH; [|exact K2]. rewrite (effect_ext _ h h' i o H). apply lset_ext, H.
Qed.
Lemma contents_hset {T} (h : nat -> vec T) i v j : contents (hset h i v j) = lset (fun j => contents (h j)) i (contents v) j.
Proof. unfold hset, lset. destruct (Nat.eqb j i); reflexivity. Qed.
Lemma vok_hset {T} sp (h : nat -> vec T) i v : (forall j, vok (sp j) (h j)) -> vok (sp i) v -> forall j, vok (sp j) (hset h i v j).
Proof. intros H Hv j. unfold hset. destruct (Nat.eqb_spec j i); [subst; exact Hv|apply H]. Qed.

(** ** C23: exact arithmetic.
    Any program of vector operations, run on vectors in any storage form (one
    value, element by element, any partition into components) and with any
    content of freshly allocated memory, leaves every vector with exactly the
    elements given by the documented effect of the operations. *)
Theorem C23_operations_real lg junk sp p : (forall n, length (junk n) = n) -> legal_prog sp p -> forall h,
  (forall j, vok (sp j) (h j)) -> safe_prog lg (fun j => contents (h j)) p ->
  forall j, vok (sp j) (run (R_ops lg) junk h p j) /\
            contents (run (R_ops lg) junk h p j) = effects (R_ops lg) (fun j => contents (h j)) p j.
Proof.
  intros Hj Hl. induction Hl as [|[i o] p Ho Hl IH]; intros h Hh Hs j; cbn [run effects]; [auto|].
  destruct Hs as [S1 S2]. destruct (exec_real lg junk Hj sp h i o Hh Ho S1) as [K1 K2].
  edestruct (IH (hset h i (exec (R_ops lg) junk h i o))) as [I1 I2].
  - apply vok_hset; auto.
  - eapply safe_prog_ext; [|exact S2]. intros k. rewrite contents_hset, K2. reflexivity.
  - split; [exact I1|]. rewrite I2. apply effects_ext. intros k. rewrite contents_hset, K2. reflexivity.
Qed.

(** Hence two runs on vectors with the same elements but different storage
    (possibly of different partition) cannot be told apart. *)
Theorem C23_storage_unobservable_real lg junk junk' sp sp' p : (forall n, length (junk n) = n) -> (forall n, length (junk' n) = n) ->
  legal_prog sp p -> legal_prog sp' p -> forall h h',
  (forall j, vok (sp j) (h j)) -> (forall j, vok (sp' j) (h' j)) -> (forall j, contents (h j) = contents (h' j)) ->
  safe_prog lg (fun j => contents (h j)) p ->
  forall j, contents (run (R_ops lg) junk h p j) = contents (run (R_ops lg) junk' h' p j).
Proof.
  intros Hj Hj' Hl Hl' h h' Hh Hh' E Hs j.
  destruct (C23_operations_real lg junk sp p Hj Hl h Hh Hs j) as [_ K1].
  destruct (C23_operations_real lg junk' sp' p Hj' Hl' h' Hh') with (j := j) as [_ K2].
  - eapply safe_prog_ext; [|exact Hs]. exact E.
  - rewrite K1, K2. apply effects_ext, E.
Qed.

(** Doubles: for the operations that compute every element by one formula, even
    the rounding errors are the same. *)
Theorem C23_operations_double lg junk sp p : (forall n, length (junk n) = n) -> legal_prog sp p ->
  forallb (fun io => elementwise (snd io)) p = true -> forall h, (forall j, vok (sp j) (h j)) ->
  forall j, vok (sp j) (run (num_ops lg) junk h p j) /\
            contents (run (num_ops lg) junk h p j) = effects (num_ops lg) (fun j => contents (h j)) p j.
Proof.
  intros Hj Hl He. revert He. induction Hl as [|[i o] p Ho Hl IH]; intros He h Hh j; cbn [run effects]; [auto|].
  cbn [forallb snd] in He. apply andb_true_iff in He. destruct He as [He1 He2].
  destruct (exec_elementwise (num_ops lg) (num_laws lg) junk Hj sp h i o Hh Ho He1) as [K1 K2].
  edestruct (IH He2 (hset h i (exec (num_ops lg) junk h i o))) as [I1 I2].
  - apply vok_hset; auto.
  - split; [exact I1|]. rewrite I2. apply effects_ext. intros k. rewrite contents_hset, K2. reflexivity.
Qed.
Theorem C23_storage_unobservable_double lg junk junk' sp sp' p : (forall n, length (junk n) = n) -> (forall n, length (junk' n) = n) ->
  legal_prog sp p -> legal_prog sp' p -> forallb (fun io => elementwise (snd io)) p = true -> forall h h',
  (forall j, vok (sp j) (h j)) -> (forall j, vok (sp' j) (h' j)) -> (forall j, contents (h j) = contents (h' j)) ->
  forall j, contents (run (num_ops lg) junk h p j) = contents (run (num_ops lg) junk' h' p j).
Proof.
  intros Hj Hj' Hl Hl' He h h' Hh Hh' E j.
  destruct (C23_operations_double lg junk sp p Hj Hl He h Hh j) as [_ K1].
  destruct (C23_operations_double lg junk' sp' p Hj' Hl' He h' Hh' j) as [_ K2].
  rewrite K1, K2. apply effects_ext, E.
Qed.

(** y + alpha*x in doubles: every element is the rounded y_i + alpha*x_i up to the
    sign of a zero, for finite alpha and x. *)
Theorem C23_axpy_double lg n a x v : nfin a = true -> Forall (fun x => nfin x = true) (dden n x) -> dok n x -> dok n v ->
  dok n (d_axpy (num_ops lg) n a x v) /\
  Forall2 (fun p q => p = q \/ neqb p q = true) (dden n (d_axpy (num_ops lg) n a x v))
    (map2 (fun y x => nadd y (nmul a x)) (dden n v) (dden n x)).
Proof. apply axpy_num. Qed.

(** Reductions, exact arithmetic *)
Theorem C23_reductions_real lg s v : vok s v ->
  v_nrm2 (R_ops lg) v = sqrt (rsum (map (fun y => y * y) (contents v))) /\
  v_asum (R_ops lg) v = rsum (map Rabs (contents v)) /\
  v_sum (R_ops lg) v = rsum (contents v) /\
  v_sumlogs (R_ops lg) v = rsum (map lg (contents v)) /\
  (forall x, vok s x -> v_dot (R_ops lg) x v = rsum (map2 Rmult (contents x) (contents v))) /\
  (contents v <> [] -> is_max (v_amax (R_ops lg) v) (map Rabs (contents v))) /\
  ((exists x, In x (contents v) /\ - (9007199254740991 * bpow radix2 971) <= x) -> is_max (v_max (R_ops lg) v) (contents v)) /\
  ((exists x, In x (contents v) /\ x <= 9007199254740991 * bpow radix2 971) -> is_min (v_min (R_ops lg) v) (contents v)).
Proof.
  intros H. split; [eapply v_nrm2_eq; eauto|]. split; [eapply v_asum_eq; eauto|]. split; [eapply v_sum_eq; eauto|].
  split; [eapply v_sumlogs_eq; eauto|]. split; [intros; eapply v_dot_eq; eauto|]. split; [eapply v_amax_eq; eauto|].
  split; [eapply v_max_eq; eauto|eapply v_min_eq; eauto].
Qed.
(** Vector::Dot of a vector with itself is computed as Nrm2()^2 (IpVector.hpp 612-632) *)
Theorem C23_dot_self_real lg s v : vok s v ->
  v_nrm2 (R_ops lg) v * v_nrm2 (R_ops lg) v = rsum (map2 Rmult (contents v) (contents v)).
Proof.
  intros H. rewrite (v_nrm2_eq lg s v H), sqrt_sqrt by apply rsum_sq_pos. f_equal. induction (contents v); simpl; congruence.
Qed.

(** Reductions, doubles: independent of the storage of each component, bit for bit *)
Theorem C23_extrema_double lg s v v' : vok s v -> vok s v' -> contents v = contents v' ->
  v_amax (num_ops lg) v = v_amax (num_ops lg) v' /\ v_max (num_ops lg) v = v_max (num_ops lg) v' /\
  v_min (num_ops lg) v = v_min (num_ops lg) v' /\
  (forall tau d d', vok s d -> vok s d' -> contents d = contents d' ->
     v_frac (num_ops lg) tau d v = v_frac (num_ops lg) tau d' v').
Proof.
  intros H H' E. split; [eapply amax_same; eauto; apply num_laws|]. split; [eapply max_same; eauto; apply num_laws|].
  split; [eapply min_same; eauto; apply num_laws|]. intros. eapply frac_same; eauto. apply num_laws.
Qed.

(** ** C24: compound vectors are concatenations.
    [h] may hold compound vectors (of any depth), [h'] their concatenations. *)
Theorem C24_compound_is_concatenation_real lg junk sp p : (forall n, length (junk n) = n) ->
  let flat (h : nat -> vec R) j := Dense (length (contents (h j))) (DV true false 0 (Some (contents (h j)))) in
  legal_prog sp p -> legal_prog (fun j => SD (sdim (sp j))) p -> forall h,
  (forall j, vok (sp j) (h j)) -> safe_prog lg (fun j => contents (h j)) p ->
  forall j, contents (run (R_ops lg) junk h p j) = contents (run (R_ops lg) junk (flat h) p j).
Proof.
  intros Hj flat Hl Hl' h Hh Hs j. apply (C23_storage_unobservable_real lg junk junk sp (fun j => SD (sdim (sp j)))); auto.
  intros k. unfold flat. rewrite (vok_length _ _ (Hh k)). constructor. split; [reflexivity|]. simpl.
  split; [intros _; eexists; split; [reflexivity|]|intros l [= <-]]; apply (vok_length _ _ (Hh k)).
Qed.
Theorem C24_compound_is_concatenation_double lg junk sp p : (forall n, length (junk n) = n) ->
  let flat (h : nat -> vec num) j := Dense (length (contents (h j))) (DV true false nzero (Some (contents (h j)))) in
  legal_prog sp p -> legal_prog (fun j => SD (sdim (sp j))) p -> forallb (fun io => elementwise (snd io)) p = true -> forall h,
  (forall j, vok (sp j) (h j)) ->
  forall j, contents (run (num_ops lg) junk h p j) = contents (run (num_ops lg) junk (flat h) p j).
Proof.
  intros Hj flat Hl Hl' He h Hh j. apply (C23_storage_unobservable_double lg junk junk sp (fun j => SD (sdim (sp j)))); auto.
  intros k. unfold flat. rewrite (vok_length _ _ (Hh k)). constructor. split; [reflexivity|]. simpl.
  split; [intros _; eexists; split; [reflexivity|]|intros l [= <-]]; apply (vok_length _ _ (Hh k)).
Qed.
(** reductions over any two partitions, exact arithmetic *)
Theorem C24_reductions_real lg s s' v v' : vok s v -> vok s' v' -> contents v = contents v' ->
  v_nrm2 (R_ops lg) v = v_nrm2 (R_ops lg) v' /\ v_asum (R_ops lg) v = v_asum (R_ops lg) v' /\
  v_sum (R_ops lg) v = v_sum (R_ops lg) v' /\ v_sumlogs (R_ops lg) v = v_sumlogs (R_ops lg) v' /\
  (forall x x', vok s x -> vok s' x' -> contents x = contents x' -> v_dot (R_ops lg) x v = v_dot (R_ops lg) x' v') /\
  v_amax (R_ops lg) v = v_amax (R_ops lg) v'.
Proof.
  intros H H' E.
  destruct (C23_reductions_real lg s v H) as (A1 & A2 & A3 & A4 & A5 & A6 & _).
  destruct (C23_reductions_real lg s' v' H') as (B1 & B2 & B3 & B4 & B5 & B6 & _).
  split; [rewrite A1, B1, E; reflexivity|]. split; [rewrite A2, B2, E; reflexivity|]. split; [rewrite A3, B3, E; reflexivity|].
  split; [rewrite A4, B4, E; reflexivity|]. split; [intros x x' Hx Hx' Ex; rewrite (A5 _ Hx), (B5 _ Hx'), E, Ex; reflexivity|].
  destruct (v_amax_from lg _ _ H) as (C1 & C2 & C3). destruct (v_amax_from lg _ _ H') as (D1 & D2 & D3).
  rewrite E in C1, C3. apply Rle_antisym.
  - destruct C1 as [C1|C1]; [lra|apply D3; exact C1].
  - destruct D1 as [D1|D1]; [lra|apply C3; exact D1].
Qed.
(** extrema in doubles over any partition (no NaN; for Max and Min some element
    within [-DBL_MAX, DBL_MAX]): the numerical value is that of the largest
    (smallest) element *)
Theorem C24_extrema_double lg s v : vok s v -> Forall (fun x => nnan x = false) (contents v) -> contents v <> [] ->
  is_max (key (v_amax (num_ops lg) v)) (map (fun x => Rabs (key x)) (contents v)) /\
  ((exists x, In x (contents v) /\ nge x (nopp dbl_max) = true) -> is_max (key (v_max (num_ops lg) v)) (map key (contents v))) /\
  ((exists x, In x (contents v) /\ nle x dbl_max = true) -> is_min (key (v_min (num_ops lg) v)) (map key (contents v))).
Proof.
  intros H G Hn. pose proof (vok_vmap s v H) as HR.
  destruct (v_amax_key lg s v H G) as [_ K1]. destruct (v_max_key lg s v H G) as [_ K2]. destruct (v_min_key lg s v H G) as [_ K3].
  rewrite K1, K2, K3. rewrite <- (map_map key Rabs), <- contents_vmap.
  destruct (huge_key lg) as [Hk _]. cbn [thuge num_ops R_ops] in Hk.
  split; [|split].
  - eapply v_amax_eq; eauto. rewrite contents_vmap. destruct (contents v); [congruence|discriminate].
  - intros (x & Hx & Hle). eapply v_max_eq; eauto. exists (key x). rewrite contents_vmap. split; [apply in_map; exact Hx|].
    apply nle_iff in Hle. destruct Hle as (_ & _ & Hle). rewrite key_opp, Hk in Hle. exact Hle.
  - intros (x & Hx & Hle). eapply v_min_eq; eauto. exists (key x). rewrite contents_vmap. split; [apply in_map; exact Hx|].
    apply nle_iff in Hle. destruct Hle as (_ & _ & Hle). rewrite Hk in Hle. exact Hle.
Qed.
(** the fraction-to-the-boundary step over any two partitions, doubles *)
Theorem C24_frac_double lg s s' tau d x d' x' : vok s d -> vok s x -> vok s' d' -> vok s' x' ->
  contents d = contents d' -> contents x = contents x' ->
  neqb (v_frac (num_ops lg) tau d x) (v_frac (num_ops lg) tau d' x') = true.
Proof.
  intros Hd Hx Hd' Hx' Ed Ex.
  destruct (v_frac_char _ (num_laws lg) _ (num_order lg) tau s x d Hd Hx) as (A1 & A2 & A3 & A4).
  destruct (v_frac_char _ (num_laws lg) _ (num_order lg) tau s' x' d' Hd' Hx') as (B1 & B2 & B3 & B4).
  rewrite <- Ed, <- Ex in B2, B4.
  assert (L1 : nlt (v_frac (num_ops lg) tau d x) (v_frac (num_ops lg) tau d' x') = false).
  { destruct A2 as [->|(p & Hp & Hq & ->)]; [exact B3|apply (B4 p Hp Hq)]. }
  assert (L2 : nlt (v_frac (num_ops lg) tau d' x') (v_frac (num_ops lg) tau d x) = false).
  { destruct B2 as [->|(p & Hp & Hq & ->)]; [exact A3|apply (A4 p Hp Hq)]. }
  apply nlt_false in L1, L2; auto. apply neqb_iff. repeat split; auto. lra.
Qed.

(** ** C20: fraction to the boundary *)
Theorem C20_fraction_to_boundary_real lg s tau d x : vok s d -> vok s x -> 0 <= tau -> Forall (fun x => 0 <= x) (contents x) ->
  let a := v_frac (R_ops lg) tau d x in
  0 <= a <= 1 /\
  Forall2 (fun x d => x + a * d >= (1 - tau) * x) (contents x) (contents d) /\
  (forall b, 0 <= b <= 1 -> Forall2 (fun x d => x + b * d >= (1 - tau) * x) (contents x) (contents d) -> b <= a).
Proof. intros. apply v_frac_rule with (s := s); auto. Qed.

(** Doubles. The step is in [0,1], and each component keeps the fraction 1-tau up
    to a relative error of two roundings and the smallest subnormal, as long as
    the quotient tau/|d_i| does not overflow. *)
Theorem C20_fraction_to_boundary_double lg s tau d x : vok s d -> vok s x -> nfin tau = true -> 0 <= key tau ->
  Forall (fun x => nfin x = true /\ 0 <= key x) (contents x) -> Forall (fun d => nfin d = true) (contents d) ->
  let a := v_frac (num_ops lg) tau d x in
  nnan a = false /\ 0 <= key a <= 1 /\
  Forall2 (fun x d => key d < 0 -> nfin (ndiv (nopp tau) d) = true ->
     key x + key a * key d >= key x - (key tau * key x * (1 + u) * (1 + u) + eta * (- key d) * (1 + key x * (1 + u)))) (contents x) (contents d).
Proof. apply frac_num. Qed.

(** In particular the new point is strictly inside (in exact arithmetic) for
    moderate data and tau <= 1 - 2^-50. *)
Theorem C20_stays_interior_double lg s tau d x : vok s d -> vok s x -> nfin tau = true -> 0 <= key tau <= 1 - bpow radix2 (-50) ->
  Forall (fun x => nfin x = true /\ bpow radix2 (-400) <= key x <= bpow radix2 400) (contents x) ->
  Forall (fun d => nfin d = true /\ (key d < 0 -> bpow radix2 (-1000) <= - key d <= bpow radix2 600)) (contents d) ->
  Forall2 (fun xi di => 0 < key xi + key (v_frac (num_ops lg) tau d x) * key di) (contents x) (contents d).
Proof.
  intros Hd Hx Ft Ht Gx Gd.
  destruct (frac_num lg s tau d x Hd Hx Ft (proj1 Ht)) as (A1 & A2 & A3).
  - eapply Forall_impl; [|exact Gx]. intros y [H1 H2]. split; [exact H1|]. pose proof (bpow_gt_0 radix2 (-400)). lra.
  - eapply Forall_impl; [|exact Gd]. tauto.
  - cbv zeta in *. set (a := v_frac (num_ops lg) tau d x) in *. clearbody a. clear Hd Hx.
    revert Gx Gd. induction A3 as [|x0 d0 lx ld H0 HF IH]; intros Gx Gd; constructor.
    + apply Forall_cons_iff in Gx, Gd. destruct Gx as [[Fx [Gx1 Gx2]] _], Gd as [[Fd Gd] _].
      assert (Px : 0 < key x0) by (pose proof (bpow_gt_0 radix2 (-400)); lra).
      destruct (Rlt_or_le (key d0) 0) as [Hn|Hn]; [|assert (0 <= key a * key d0) by (apply Rmult_le_pos; lra); lra].
      destruct (Gd Hn) as [Gd1 Gd2]. clear Gd.
      assert (Ff : nfin (ndiv (nopp tau) d0) = true).
      { destruct (ndiv_fin (nopp tau) d0) as [N K]; [rewrite nfin_opp; exact Ft|exact Fd|lra|].
        rewrite key_opp in K. replace (- key tau / key d0) with (key tau / - key d0) in K by (field; lra).
        assert (Hq0 : 0 <= key tau / - key d0) by (apply Rmult_le_pos; [lra|left; apply Rinv_0_lt_compat; lra]).
        assert (Hq : key tau / - key d0 <= bpow radix2 1000).
        { change 1000%Z with (- (-1000))%Z. rewrite bpow_opp. unfold Rdiv.
          replace (/ bpow radix2 (-1000)) with (1 * / bpow radix2 (-1000)) by ring.
          apply Rmult_le_compat; try lra. left; apply Rinv_0_lt_compat; lra. pose proof (bpow_gt_0 radix2 (-50)); lra.
          apply Rinv_le; [apply bpow_gt_0|exact Gd1]. }
        apply key_strict_finite; [exact N|]. rewrite K. pose proof (fl_up _ Hq0) as U. 
        assert (U0 : 0 <= fl (key tau / - key d0)) by (apply fl_pos; exact Hq0).
        assert (Hu : u <= 1) by (unfold u; change 1 with (bpow radix2 0); apply bpow_le; lia).
        assert (He : eta <= 1) by (unfold eta; change 1 with (bpow radix2 0); apply bpow_le; lia).
        assert (Hb : big = bpow radix2 1000 * 16777216).
        { unfold big. change 1024%Z with (1000 + 24)%Z. rewrite bpow_plus. f_equal. }
        assert (H1 : 1 <= bpow radix2 1000) by (change 1 with (bpow radix2 0); apply bpow_le; lia).
        assert (Hu0 : 0 < u) by apply bpow_gt_0. pose proof big_pos. split; [lra|]. rewrite Hb. nra. }
      specialize (H0 Hn Ff). unfold step_ok in H0.
      set (X := key x0) in *. set (D := - key d0) in *.
      assert (Heta : eta * D * (1 + X * (1 + u)) <= X * bpow radix2 (-60)).
      { assert (Hu : u <= 1) by (unfold u; change 1 with (bpow radix2 0); apply bpow_le; lia).
        assert (Hu0 : 0 < u) by apply bpow_gt_0.
        assert (E1 : eta * D <= bpow radix2 (-475)).
        { unfold eta. change (-475)%Z with (-1075 + 600)%Z. rewrite bpow_plus. apply Rmult_le_compat_l; [apply bpow_ge_0|exact Gd2]. }
        assert (E0 : 0 <= eta * D) by (apply Rmult_le_pos; [apply bpow_ge_0|pose proof (bpow_gt_0 radix2 (-1000)); lra]).
        assert (E2 : bpow radix2 (-475) = bpow radix2 (-75) * bpow radix2 (-400)) by (rewrite <- bpow_plus; reflexivity).
        assert (E3 : bpow radix2 (-475) <= bpow radix2 (-75)) by (apply bpow_le; lia).
        assert (E4 : bpow radix2 (-60) = bpow radix2 (-75) * 32768) by (change (-60)%Z with (-75 + 15)%Z; rewrite bpow_plus; reflexivity).
        pose proof (bpow_gt_0 radix2 (-75)). pose proof (bpow_gt_0 radix2 (-400)).
        apply Rle_trans with (bpow radix2 (-475) * (1 + X * 2)).
        - apply Rmult_le_compat; try nra.
        - rewrite E4. rewrite Rmult_plus_distr_l, Rmult_1_r.
          assert (bpow radix2 (-475) <= bpow radix2 (-75) * X) by (rewrite E2; apply Rmult_le_compat_l; lra).
          assert (bpow radix2 (-475) * (X * 2) <= bpow radix2 (-75) * (X * 2)) by (apply Rmult_le_compat_r; lra).
          nra. }
      assert (Hmain : key tau * ((1 + u) * (1 + u)) + bpow radix2 (-60) < 1).
      { assert (Hu : u = bpow radix2 (-60) * 128) by (unfold u; change (-53)%Z with (-60 + 7)%Z; rewrite bpow_plus; reflexivity).
        assert (H50 : bpow radix2 (-50) = bpow radix2 (-60) * 1024) by (change (-50)%Z with (-60 + 10)%Z; rewrite bpow_plus; reflexivity).
        assert (Hsm : bpow radix2 (-60) <= / 1048576) by (change (/ 1048576) with (bpow radix2 (-20)); apply bpow_le; lia).
        rewrite H50 in Ht. rewrite Hu. pose proof (bpow_gt_0 radix2 (-60)). set (e := bpow radix2 (-60)) in *. clearbody e. nra. }
      assert (X * (key tau * ((1 + u) * (1 + u)) + bpow radix2 (-60)) < X * 1) by (apply Rmult_lt_compat_l; auto). lra.
    + apply Forall_cons_iff in Gx, Gd. apply IH; tauto.
Qed.
