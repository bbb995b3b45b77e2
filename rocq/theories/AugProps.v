(** C69-C73: the augmented system, least squares multipliers and least squares starting points. *)
From Coq Require Import Reals List Arith Bool Lia Lra.
From Verif Require Import CQModel CQSpec CQVec CQFuns PdModel PdSpec PdAlg AugModel AugSpec AugProofs AugLs.
Import ListNotations.
Open Scope R_scope.
Local Notation "v .[ i ]" := (nth i v 0) (at level 1, format "v .[ i ]").

(** * C69 *)
Section C69.
Variables (nx ns nc : nat) (L : Type) (ls : linsolver L).

Lemma prepare_l q t bs (s : sst L) : s_l (prepare q t bs s) = s_l s.
Proof. unfold prepare. destruct (s_sys s); destruct (requires_change _ _ _); reflexivity. Qed.
Lemma prepare_inv ks k s : history ls ks s -> history_ok nx ns nc (ks ++ [k]) -> inv nx ns nc (prepare (k_q k) (k_t k) (k_bs k) s) k.
Proof.
  intros H (Hc & Ha & Hw). apply Forall_app in Hc as [Hc1 Hc2]. apply Forall_inv in Hc2.
  assert (OK : history_ok nx ns nc ks).
  { unfold history_ok. splits; [exact Hc1|intros k1 k2 I1 I2; apply Ha; apply in_or_app; left; assumption|].
    intros k0 ks0 ->. apply (Hw k0 (ks0 ++ [k])). reflexivity. }
  pose proof (history_inv nx ns nc ls ks s H OK) as HI. destruct ks as [|k0 ks0].
  - apply (prepare_first nx ns nc s k Hc2 HI).
  - destruct HI as (ks' & k1 & E1 & I1). rewrite E1 in Hc1, Ha. apply Forall_app in Hc1 as [_ C1]. apply Forall_inv in C1.
    apply (prepare_next nx ns nc s k1 k C1 Hc2); [|exact I1].
    apply Ha; apply in_or_app; [left; apply in_or_app; right; left; reflexivity|right; left; reflexivity].
Qed.

(** Whatever was asked before: the matrix the linear solver gets is the augmented system of this call's arguments;
    right hand sides, answer and status pass through unchanged. *)
Theorem C69_matrix_is_current ks k s : history ls ks s -> history_ok nx ns nc (ks ++ [k]) ->
  exists r xs K s' l',
    multi_solve ls (k_q k) (k_t k) (k_bs k) (k_chk k) (k_n k) s = Some (r, xs, K, s') /\
    ls (s_l s) K (k_bs k) (k_chk k) (k_n k) = (r, xs, l') /\ s_l s' = l' /\
    forall a, av_ok nx ns nc a -> rows_are nx ns nc (kmul (snd K) a) (row_x (k_q k) a) (row_s (k_q k) a) (row_c (k_q k) a) (row_d (k_q k) a).
Proof.
  intros H OK. destruct (prepare_inv ks k s H OK) as (T & K & S1 & S2 & S3 & S4).
  assert (AO : arg_ok nx ns nc (k_q k)) by (destruct OK as (Hc & _); apply Forall_app in Hc as [_ Hc]; apply Forall_inv in Hc; apply Hc).
  unfold multi_solve. rewrite S1, prepare_l. destruct (ls (s_l s) (T, K) (k_bs k) (k_chk k) (k_n k)) as [[r xs] l'] eqn:E.
  exists r, xs, (T, K). eexists. exists l'. splits; [reflexivity|exact E|reflexivity|].
  intros a Ha. apply kmul_is; assumption.
Qed.

(** The matrix object is the one of the previous call exactly if nothing was changed; otherwise it is a new one, with a larger tag. *)
Theorem C69_rebuilt_iff_changed ks k1 k2 s0 r1 xs1 K1 s1 r2 xs2 K2 s2 : history ls ks s0 -> history_ok nx ns nc (ks ++ [k1; k2]) ->
  multi_solve ls (k_q k1) (k_t k1) (k_bs k1) (k_chk k1) (k_n k1) s0 = Some (r1, xs1, K1, s1) ->
  multi_solve ls (k_q k2) (k_t k2) (k_bs k2) (k_chk k2) (k_n k2) s1 = Some (r2, xs2, K2, s2) ->
  (same_args k1 k2 -> K2 = K1) /\ (~ same_args k1 k2 -> (fst K1 < fst K2)%nat).
Proof.
  intros H OK M1 M2. pose proof OK as (Hc & Ha & Hw).
  assert (OK1 : history_ok nx ns nc (ks ++ [k1])).
  { unfold history_ok. change [k1; k2] with ([k1] ++ [k2]) in *. rewrite app_assoc in Hc, Ha, Hw. apply Forall_app in Hc as [Hc1 _]. splits; [exact Hc1| |].
    - intros a b I1 I2; apply Ha; apply in_or_app; left; assumption.
    - intros a l E. apply (Hw a (l ++ [k2])). rewrite E. reflexivity. }
  pose proof (prepare_inv ks k1 s0 H OK1) as I1. pose proof (inv_after nx ns nc ls k1 s0 r1 xs1 K1 s1 M1 I1) as I2.
  apply Forall_app in Hc as [_ Hc]. pose proof (Forall_inv Hc) as C1. pose proof (Forall_inv (Forall_inv_tail Hc)) as C2.
  assert (AG : agree k1 k2) by (apply Ha; apply in_or_app; right; cbn; tauto).
  destruct (prepare_next nx ns nc s1 k1 k2 C1 C2 AG I2) as (_ & P1 & P2).
  apply solve_state in M1. destruct M1 as (_ & _ & S1 & _). apply solve_state in M2. destruct M2 as (S2 & _).
  destruct I2 as (T & K & J1 & _ & _ & J4). rewrite S1 in J1. inversion J1; subst K1. split.
  - intros SA. specialize (P1 SA). rewrite S2, S1 in P1. inversion P1. reflexivity.
  - intros NS. destruct K2 as [T2 K2]. cbn. rewrite (P2 NS T2 K2 S2). exact J4.
Qed.

(** With a linear solver that solves what it is given, a successful call returns solutions of the augmented system. *)
Theorem C69_exact_linear_solver ks k s xs K s' : lin_exact nx ns nc ls -> history ls ks s -> history_ok nx ns nc (ks ++ [k]) ->
  multi_solve ls (k_q k) (k_t k) (k_bs k) (k_chk k) (k_n k) s = Some (SUCCESS, xs, K, s') ->
  Forall2 (solves_arg nx ns nc (k_q k)) (k_bs k) xs.
Proof.
  intros EX H OK M. destruct (C69_matrix_is_current ks k s H OK) as (r & xs0 & K0 & s0 & l0 & M0 & E & _ & R).
  rewrite M in M0. inversion M0; subst r xs0 K0 s0. destruct K as [T K]. apply EX in E. cbn [snd] in R.
  clear - E R. revert E. generalize (k_bs k) as bs. intros bs E. induction E as [|b x bs xs' [A1 A2] E IH]; [constructor|].
  constructor; [|exact IH]. split; [exact A1|]. rewrite <- A2. apply R. exact A1.
Qed.
End C69.

(** * C70 *)
Section LS.
Context {L : Type}.
Variable asolve : L -> aarg -> av -> bool -> nat -> status * av * L.
Variable inertia : L -> bool.
Variables (P : nlp) (W0 : mat).
Notation nx := (n_x P). Notation ns := (n_s P). Notation nc := (n_c P).

Definition zeros (y : vec) : Prop := forall i, y.[i] = 0.
Lemma zeros_vset n : zeros (vset n 0).
Proof. intros i. destruct (lt_dec i n) as [H|H]; [apply vset0; exact H|]. apply nth_overflow. unfold vset. rewrite mk_len. lia. Qed.

(** The multipliers are zero, or they minimise the length of the gradient of the Lagrangian and no entry is larger than the limit;
    nothing else of the point is changed. *)
Theorem C70_least_squares_multipliers : nlp_ok P -> mr W0 = nx /\ mc W0 = nx -> aug_exact P asolve ->
  forall calc ymax v l, point_ok P v -> let v' := fst (least_square_mults asolve inertia P W0 calc ymax v l) in
  (vx v' = vx v /\ vs v' = vs v /\ vzL v' = vzL v /\ vzU v' = vzU v /\ vvL v' = vvL v /\ vvU v' = vvU v) /\
  length (vyc v') = nc /\ length (vyd v') = ns /\
  ((zeros (vyc v') /\ zeros (vyd v')) \/
   ((forall i, Rabs (vyc v').[i] <= ymax) /\ (forall i, Rabs (vyd v').[i] <= ymax) /\
    forall yc yd, length yc = nc -> length yd = ns -> lag_sq P v (vyc v') (vyd v') <= lag_sq P v yc yd)).
Proof.
  intros HP HW HA calc ymax v l Pv. unfold least_square_mults. cbv zeta.
  set (zero := set_y v (vset nc 0) (vset ns 0)).
  assert (Z : (vx zero = vx v /\ vs zero = vs v /\ vzL zero = vzL v /\ vzU zero = vzU v /\ vvL zero = vvL v /\ vvU zero = vvU v) /\
    length (vyc zero) = nc /\ length (vyd zero) = ns /\ (zeros (vyc zero) /\ zeros (vyd zero))).
  { unfold zero. cbn. splits; try reflexivity; try apply vset_is; apply zeros_vset. }
  destruct (Nat.eqb nc nx); [cbn [fst]; tauto|]. destruct (calc && _ && _) eqn:G; [|cbn [fst]; tauto].
  destruct (calc_mults asolve inertia P W0 v l) as [[[yc yd]|] l1] eqn:C; [|cbn [fst]; tauto].
  destruct (Rlt_dec ymax (Rmax (amax yc) (amax yd))) as [B|B]; [cbn [fst]; tauto|]. cbn [fst set_y vx vs vzL vzU vvL vvU vyc vyd].
  destruct (calc_mults_opt asolve inertia P W0 HP HW HA v l yc yd l1 Pv C) as (L1 & L2 & OPT).
  splits; try reflexivity; try assumption. right.
  assert (NN : 0 < ymax) by (rewrite !andb_true_iff in G; destruct G as [[_ G] _]; destruct (Rlt_dec 0 ymax); [assumption|discriminate]).
  assert (AM : forall y i, amax y <= ymax -> Rabs y.[i] <= ymax).
  { intros y i H. destruct (lt_dec i (length y)) as [Hi|Hi].
    - destruct (amax_is y (length y) (fun i => y.[i]) (vis_self y _ eq_refl)) as (_ & A & _). specialize (A i Hi). cbn in A. lra.
    - rewrite nth_overflow by lia. rewrite Rabs_R0. lra. }
  pose proof (Rmax_l (amax yc) (amax yd)). pose proof (Rmax_r (amax yc) (amax yd)). splits; [intros i; apply AM; lra|intros i; apply AM; lra|exact OPT].
Qed.

(** * C71: after CalculateLeastSquareDuals, with the Jacobian at xc and the objective gradient at xt, the Lagrangian
    is stationary, and no other stationary choice has smaller bound multipliers. *)
Definition stationary (xc xt : vec) (yc yd zL zU vL vU : vec) : Prop :=
  (forall i, (i < nx)%nat -> lag_x P (fn_g P xt) (fn_Jc P xc) (fn_Jd P xc) yc yd zL zU i = 0) /\
  (forall i, (i < ns)%nat -> lag_s P yd vL vU i = 0).
Definition size (zL zU vL vU : vec) : R :=
  sq (length (pxL P)) (fun k => zL.[k]) + sq (length (pxU P)) (fun k => zU.[k]) + sq (length (pdL P)) (fun k => vL.[k]) + sq (length (pdU P)) (fun k => vU.[k]).
Theorem C71_least_squares_duals : nlp_ok P -> mr W0 = nx /\ mc W0 = nx -> aug_exact P asolve ->
  forall xc xt l yc yd zL zU vL vU l', length xc = nx -> length xt = nx ->
  ls_duals asolve P W0 xc xt l = (Some (yc, yd, (zL, zU, vL, vU)), l') ->
  (length yc = nc /\ length yd = ns /\ length zL = length (pxL P) /\ length zU = length (pxU P) /\ length vL = length (pdL P) /\ length vU = length (pdU P)) /\
  stationary xc xt yc yd zL zU vL vU /\
  forall yc' yd' zL' zU' vL' vU', length yc' = nc -> length yd' = ns -> stationary xc xt yc' yd' zL' zU' vL' vU' -> size zL zU vL vU <= size zL' zU' vL' vU'.
Proof. intros HP HW HA xc xt l yc yd zL zU vL vU l'. exact (ls_duals_opt asolve P W0 HP HW HA xc xt l yc yd zL zU vL vU l'). Qed.

(** * C72: CalculateLeastSquarePrimals returns the smallest (x, s) with J_c x + c = 0, J_d x + d = s (c, d, J at the point x0) *)
Definition step_sat (x0 x s : vec) : Prop :=
  (forall i, (i < nc)%nat -> Jv (fn_Jc P x0) x i + (fn_c P x0).[i] = 0) /\ (forall i, (i < ns)%nat -> Jv (fn_Jd P x0) x i + (fn_d P x0).[i] = s.[i]).
Theorem C72_least_squares_primals : nlp_ok P -> mr W0 = nx /\ mc W0 = nx -> aug_exact P asolve ->
  forall x0 l x s l', length x0 = nx -> ls_primals asolve P W0 x0 l = (Some (x, s), l') ->
  length x = nx /\ length s = ns /\ step_sat x0 x s /\
  forall x' s', length x' = nx -> length s' = ns -> step_sat x0 x' s' -> sq nx (fun i => x.[i]) + sq ns (fun i => s.[i]) <= sq nx (fun i => x'.[i]) + sq ns (fun i => s'.[i]).
Proof. intros HP HW HA x0 l x s l'. exact (ls_primals_opt asolve P W0 HP HW HA x0 l x s l'). Qed.

(** the constraints, linearised at x0, hold at (x, s): c(x0) + J_c (x - x0) = 0, d(x0) + J_d (x - x0) = s *)
Definition linearised (x0 x s : vec) : Prop :=
  (forall i, (i < nc)%nat -> (fn_c P x0).[i] + (Jv (fn_Jc P x0) x i - Jv (fn_Jc P x0) x0 i) = 0) /\
  (forall i, (i < ns)%nat -> (fn_d P x0).[i] + (Jv (fn_Jd P x0) x i - Jv (fn_Jd P x0) x0 i) = s.[i]).
(** This is what the documentation promises; it holds from the point 0 only (or if J x0 = 0) *)
Theorem C72_fits_linearised_constraints_from_zero : nlp_ok P -> mr W0 = nx /\ mc W0 = nx -> aug_exact P asolve ->
  forall x0 l x s l', length x0 = nx -> (forall i, x0.[i] = 0) -> ls_primals asolve P W0 x0 l = (Some (x, s), l') -> linearised x0 x s.
Proof.
  intros HP HW HA x0 l x s l' L0 Z E. destruct (C72_least_squares_primals HP HW HA x0 l x s l' L0 E) as (_ & _ & [S1 S2] & _).
  assert (J0 : forall J i, Jv J x0 i = 0).
  { intros J i. unfold Jv. rewrite (sumn_ext _ _ (fun _ => 0)); [apply sumn_0|]. intros j _. rewrite Z. ring. }
  split; intros i Hi; rewrite J0; [specialize (S1 i Hi)|specialize (S2 i Hi)]; lra.
Qed.

(** * C73: the starting point, for any linear solver whatsoever *)
Variables (push_x push_s : vec -> vec) (slack : bd -> vec -> vec -> vec).
Definition positive (n : nat) (z : vec) : Prop := length z = n /\ forall k, (k < n)%nat -> 0 < z.[k].
Theorem C73_initial_multipliers (o : iopts) x0 l : 0 < mult_val o -> 0 < mu_init o ->
  (forall b x s k, (k < length (match b with XL => pxL P | XU => pxU P | SL => pdL P | SU => pdU P end))%nat -> 0 < (slack b x s).[k]) ->
  let v := fst (set_initial asolve inertia P W0 push_x push_s slack o x0 l) in
  (exists x, vx v = push_x x /\ (ls_primal_on o = false -> x = x0)) /\ vs v = push_s (fn_d P (vx v)) /\
  positive (length (pxL P)) (vzL v) /\ positive (length (pxU P)) (vzU v) /\ positive (length (pdL P)) (vvL v) /\ positive (length (pdU P)) (vvU v) /\
  (ls_duals_on o = false -> 0 <= mult_max o -> (forall i, Rabs (vyc v).[i] <= mult_max o) /\ (forall i, Rabs (vyd v).[i] <= mult_max o)).
Proof.
  intros Hv Hm Hs. unfold set_initial. cbv zeta.
  destruct (if ls_primal_on o then _ else (x0, l)) as [x1 l1] eqn:E1.
  assert (X1 : ls_primal_on o = false -> x1 = x0) by (intros F; rewrite F in E1; inversion E1; reflexivity).
  set (x := push_x x1). set (s := push_s (fn_d P x)). set (v0 := init_mults P slack o x s).
  assert (PI : forall b n, n = length (match b with XL => pxL P | XU => pxU P | SL => pdL P | SU => pdU P end) ->
     positive n (if mu_based o then vmap2 Rdiv (vset n (mu_init o)) (slack b x s) else vset n (mult_val o))).
  { intros b n En. destruct (mu_based o).
    - split; [unfold vmap2, vset, dim; rewrite !mk_len; reflexivity|]. intros k Hk.
      assert (EK : el (vmap2 Rdiv (vset n (mu_init o)) (slack b x s)) k = mu_init o / (slack b x s).[k]).
      { unfold vmap2. rewrite mk_el by (unfold vset, dim; rewrite mk_len; exact Hk). rewrite (vis_el _ _ _ _ (vset_is n (mu_init o)) Hk). reflexivity. }
      unfold el in EK at 1. rewrite EK. apply Rdiv_lt_0_compat; [exact Hm|]. apply Hs. rewrite <- En. exact Hk.
    - split; [apply vset_is|]. intros k Hk. rewrite (vis_el _ _ _ _ (vset_is n (mult_val o)) Hk : (vset n (mult_val o)).[k] = mult_val o). exact Hv. }
  pose proof (PI XL _ eq_refl) as P1. pose proof (PI XU _ eq_refl) as P2. pose proof (PI SL _ eq_refl) as P3. pose proof (PI SU _ eq_refl) as P4.
  assert (LM : forall l, let v := fst (least_square_mults asolve inertia P W0 (has_calc o) (mult_max o) v0 l) in
     (exists x, vx v = push_x x /\ (ls_primal_on o = false -> x = x0)) /\ vs v = push_s (fn_d P (vx v)) /\
     positive (length (pxL P)) (vzL v) /\ positive (length (pxU P)) (vzU v) /\ positive (length (pdL P)) (vvL v) /\ positive (length (pdU P)) (vvU v) /\
     (ls_duals_on o = false -> 0 <= mult_max o -> (forall i, Rabs (vyc v).[i] <= mult_max o) /\ (forall i, Rabs (vyd v).[i] <= mult_max o))).
  { intros l0. cbv zeta.
    assert (G : forall yc yd, (0 <= mult_max o -> (forall i, Rabs yc.[i] <= mult_max o) /\ (forall i, Rabs yd.[i] <= mult_max o)) ->
      let v := set_y v0 yc yd in
      (exists x, vx v = push_x x /\ (ls_primal_on o = false -> x = x0)) /\ vs v = push_s (fn_d P (vx v)) /\
      positive (length (pxL P)) (vzL v) /\ positive (length (pxU P)) (vzU v) /\ positive (length (pdL P)) (vvL v) /\ positive (length (pdU P)) (vvU v) /\
      (ls_duals_on o = false -> 0 <= mult_max o -> (forall i, Rabs (vyc v).[i] <= mult_max o) /\ (forall i, Rabs (vyd v).[i] <= mult_max o))).
    { intros yc yd Y. cbn [set_y vx vs vzL vzU vvL vvU vyc vyd v0 init_mults].
      split; [exists x1; split; [reflexivity|exact X1]|]. split; [reflexivity|]. split; [exact P1|]. split; [exact P2|]. split; [exact P3|]. split; [exact P4|].
      intros _ M. exact (Y M). }
    assert (Z0 : 0 <= mult_max o -> (forall i, Rabs (vset nc 0).[i] <= mult_max o) /\ (forall i, Rabs (vset ns 0).[i] <= mult_max o)).
    { intros M. split; intros i; rewrite zeros_vset, Rabs_R0; exact M. }
    unfold least_square_mults. destruct (Nat.eqb nc nx); [apply (G _ _ Z0)|]. destruct (has_calc o && _ && _); [|apply (G _ _ Z0)].
    destruct (calc_mults asolve inertia P W0 v0 l0) as [[[yc yd]|] l2]; [|apply (G _ _ Z0)].
    destruct (Rlt_dec (mult_max o) (Rmax (amax yc) (amax yd))) as [B|B]; [apply (G _ _ Z0)|].
    apply (G yc yd). intros M.
    assert (AM : forall y i, amax y <= mult_max o -> Rabs y.[i] <= mult_max o).
    { intros y i H. destruct (lt_dec i (length y)) as [Hi|Hi].
      - destruct (amax_is y (length y) (fun i => y.[i]) (vis_self y _ eq_refl)) as (_ & A & _). specialize (A i Hi). cbn in A. lra.
      - rewrite nth_overflow by lia. rewrite Rabs_R0. lra. }
    pose proof (Rmax_l (amax yc) (amax yd)). pose proof (Rmax_r (amax yc) (amax yd)). split; intros i; apply AM; lra. }
  destruct (ls_duals_on o) eqn:D; [|exact (LM l1)].
  unfold ls_duals. destruct (asolve l1 _ _ _ _) as [[r a] l2] eqn:EA.
  destruct r; [|exact (LM l2)..].
  cbn [fst vx vs vzL vzU vvL vvU vyc vyd].
    assert (MP : forall n z w, length z = n -> positive n w -> positive n (vmap2 Rmax z w)).
    { intros n z w Lz [Lw Pw]. split; [unfold vmap2, dim; rewrite mk_len; exact Lz|]. intros k Hk.
      assert (EK : el (vmap2 Rmax z w) k = Rmax (el z k) (el w k)) by (unfold vmap2; rewrite mk_el by (unfold dim; rewrite Lz; exact Hk); reflexivity).
      unfold el in EK at 1. rewrite EK. specialize (Pw k Hk). pose proof (Rmax_r (el z k) (el w k)). unfold el in *. lra. }
    split; [exists x1; split; [reflexivity|exact X1]|]. split; [reflexivity|].
    split; [apply MP; [unfold ptmul; apply mk_len|exact P1]|]. split; [apply MP; [unfold ptmul; apply mk_len|exact P2]|].
    split; [apply MP; [unfold ptmul; apply mk_len|exact P3]|]. split; [apply MP; [unfold ptmul; apply mk_len|exact P4]|]. discriminate.
Qed.
End LS.

(** * A concrete problem and solver: one variable, one inequality, no equality; Cramer's rule *)
Definition cramer (l : unit) (q : aarg) (b : av) (chk : bool) (n : nat) : status * av * unit :=
  let h := match g_W q with Some W => g_wf q * ment W 0 0 | None => 0 end + dv (g_Dx q) 0 + g_dx q in
  let k := dv (g_Ds q) 0 + g_ds q in let e := dv (g_Dd q) 0 - g_dd q in let j := ment (g_Jd q) 0 0 in
  let D := h * (e * k - 1) - j * j * k in
  let u := (ax b).[0] + j * (as_ b).[0] in let w := (ad b).[0] + e * (as_ b).[0] in
  if Req_EM_T D 0 then (SINGULAR, b, tt) else
  let s := (h * w - j * u) / D in
  (SUCCESS, AV [(u * (e * k - 1) - j * k * w) / D] [s] [] [k * s - (as_ b).[0]], tt).
Definition exP (fc fJ fg : R -> R) (bx bdd : list nat) : nlp :=
  NLP 1 1 0 bx [] bdd [] false (fun _ => 0) (fun _ _ => 0) (fun x => [fg x.[0]]) (fun _ _ => []) (fun _ => []) (fun x => [fc x.[0]])
      (fun _ => Mat 0 1 (fun _ _ => 0)) (fun x => Mat 1 1 (fun _ _ => fJ x.[0])) (fun _ _ _ _ => Mat 1 1 (fun _ _ => 0)) (fun _ _ _ _ _ => Mat 1 1 (fun _ _ => 0))
      1 (fun _ => 1) (fun _ => 1) (fun _ => 1) false None None.
Definition exW0 : mat := Mat 1 1 (fun _ _ => 7).
Lemma exP_ok fc fJ fg bx bdd : Forall (fun i => i = O) bx -> Forall (fun i => i = O) bdd -> nlp_ok (exP fc fJ fg bx bdd).
Proof.
  intros Hx Hd. rewrite Forall_forall in Hx, Hd. constructor; cbn; intros; try reflexivity; try (split; reflexivity).
  - destruct H as [H|[]]. rewrite (Hx _ H). lia.
  - destruct H as [H|[]]. rewrite (Hd _ H). lia.
Qed.
Lemma cramer_rows q b chk n a l : arg_ok 1 1 0 q -> av_ok 1 1 0 b -> cramer l q b chk n = (SUCCESS, a, l) -> solves_arg 1 1 0 q b a.
Proof.
  intros [AW [AJ1 AJ2] [AK1 AK2] AD] (B1 & B2 & B3 & B4). unfold cramer. cbv zeta. destruct (Req_EM_T _ 0) as [|D0]; [discriminate|]. intros H.
  apply (f_equal (fun p => snd (fst p))) in H. cbn [fst snd] in H. subst a.
  unfold solves_arg, av_ok, rows_are, row_x, row_s, row_c, row_d, wv, Jv, JTv. cbn [ax as_ ac ad length]. rewrite AJ1, AJ2, AK1, AK2.
  splits; try reflexivity.
  - split; [exact B1|]. intros [|i] Hi; [|lia]. cbn [sumn nth].
    destruct (g_W q) as [W|]; [destruct AW as [_ W2]; rewrite W2|]; cbn [sumn nth]; (field; intros X; apply D0; etransitivity; [|exact X]; ring).
  - split; [exact B2|]. intros [|i] Hi; [|lia]. cbn [nth]. ring.
  - split; [exact B3|]. intros i Hi. lia.
  - split; [exact B4|]. intros [|i] Hi; [|lia]. cbn [sumn nth]. destruct (g_W q) as [W|]; (field; intros X; apply D0; etransitivity; [|exact X]; ring).
Qed.
Lemma cramer_exact fc fJ fg bx bdd : aug_exact (exP fc fJ fg bx bdd) cramer.
Proof. intros [] q b chk n a [] Q B E. exact (cramer_rows q b chk n a tt Q B E). Qed.

(** C72: what the documentation says of least_square_init_primal - the starting point satisfies the linearised constraints -
    does not hold: d(x) = x from x0 = 1 gives x = -1/2, s = 1/2 *)
Theorem C72_linearised_refuted : exists (P : nlp) (asolve : unit -> aarg -> av -> bool -> nat -> status * av * unit) W0 x0 x s,
  nlp_ok P /\ (mr W0 = n_x P /\ mc W0 = n_x P) /\ aug_exact P asolve /\ length x0 = n_x P /\ ls_primals asolve P W0 x0 tt = (Some (x, s), tt) /\ ~ linearised P x0 x s.
Proof.
  set (P := exP (fun x => x) (fun _ => 1) (fun _ => 0) [] []). exists P, cramer, exW0, [1].
  assert (E : exists x s, ls_primals cramer P exW0 [1] tt = (Some ([x], [s]), tt) /\ x = -/2 /\ s = /2).
  { unfold ls_primals, cramer. cbv zeta. cbn [g_W g_wf exW0 ment dv g_Dx g_dx g_Ds g_ds g_Dd g_dd g_Jd P exP fn_Jd].
    destruct (Req_EM_T _ 0) as [X|_]; [exfalso; revert X; lra|]. cbn [vmap map ax as_]. unfold vmap, mk. cbn [dim length seq map el nth].
    eexists. eexists. split; [reflexivity|]. cbn [as_ ad ax vset mk dim length seq map nth n_x n_s fn_d exP]. unfold P, vset, mk. cbn [fn_d n_x n_s exP seq map nth]. split; field; lra. }
  destruct E as (x & s & E & Ex & Es). exists [x], [s]. splits; try reflexivity; [apply exP_ok; constructor|apply cramer_exact|exact E|].
  intros [_ F]. specialize (F O ltac:(cbn; lia)). revert F. unfold Jv. cbn. rewrite Ex, Es. lra.
Qed.

(** C71: the multipliers belong to a mixture of two points: with the gradient and the Jacobian both taken at the starting point xt
    the statement is false (xc is the user's point, xt the one moved into the bounds) *)
Theorem C71_stationary_at_starting_point_refuted : exists (P : nlp) (asolve : unit -> aarg -> av -> bool -> nat -> status * av * unit) W0 xc xt yc yd zL zU vL vU,
  nlp_ok P /\ (mr W0 = n_x P /\ mc W0 = n_x P) /\ aug_exact P asolve /\ length xc = n_x P /\ length xt = n_x P /\
  ls_duals asolve P W0 xc xt tt = (Some (yc, yd, (zL, zU, vL, vU)), tt) /\ ~ stationary P xt xt yc yd zL zU vL vU.
Proof.
  set (P := exP (fun x => x * x) (fun x => 2 * x) (fun _ => 1) [O] [O]). exists P, cramer, exW0, [1], [2].
  assert (E : exists yc yd zL zU vL vU, ls_duals cramer P exW0 [1] [2] tt = (Some (yc, yd, (zL, zU, vL, vU)), tt)).
  { unfold ls_duals, cramer. cbv zeta. cbn [g_W g_wf exW0 ment dv g_Dx g_dx g_Ds g_ds g_Dd g_dd g_Jd P exP fn_Jd n_x n_s pxL pxU pdL pdU].
    destruct (minus_ones_is 1 [O] [] ltac:(intros i [[<-|[]]|[]]; lia)) as [_ M]. rewrite (M O ltac:(lia)). clear M. cbn [scat sumn length nth Nat.eqb].
    destruct (Req_EM_T _ 0) as [X|_]; [exfalso; revert X; cbn; lra|]. repeat eexists. }
  destruct E as (yc & yd & zL & zU & vL & vU & E). exists yc, yd, zL, zU, vL, vU.
  assert (OK : nlp_ok P) by (apply exP_ok; repeat constructor).
  splits; try reflexivity; [exact OK|apply cramer_exact|exact E|]. intros [T1 _].
  destruct (C71_least_squares_duals cramer P exW0 OK (conj eq_refl eq_refl) (cramer_exact _ _ _ _ _) [1] [2] tt yc yd zL zU vL vU tt eq_refl eq_refl E) as (_ & [S1 S2] & OPT).
  specialize (T1 O ltac:(cbn; lia)). specialize (S1 O ltac:(cbn; lia)). specialize (S2 O ltac:(cbn; lia)).
  specialize (OPT [] [-(2/5)] [1/5] [] [2/5] []). cbn in OPT.
  assert (ST : stationary P [1] [2] [] [-(2/5)] [1/5] [] [2/5] []).
  { split; intros [|i] Hi; try (cbn in Hi; lia); unfold lag_x, lag_s, JTv, scat; cbn; field. }
  specialize (OPT eq_refl eq_refl ST). revert T1 S1 S2 OPT. unfold lag_x, lag_s, JTv, scat, size, sq. cbn.
  set (y := yd.[0]). set (z := zL.[0]). set (v := vL.[0]). intros T1 S1 S2 OPT.
  assert (y = 0) by lra. assert (z = 1) by lra. assert (v = 0) by lra. subst y. rewrite H0, H1 in OPT. lra.
Qed.

(** one variable, no constraints: a linear solver that solves what it is given *)
Definition one_ls (l : unit) (K : nat * kkt) (bs : list av) (chk : bool) (n : nat) : status * list av * unit :=
  match snd K, bs with
  | Kkt wf W [d] [] (Mat O 1 _) [] (Mat O 1 _) _ [], [AV [u] [] [] []] =>
    if Nat.eqb (mc W) 1 && Nat.eqb (mr W) 1 then
      if Req_EM_T (wf * ment W 0 0 + d) 0 then (SINGULAR, [], tt) else (SUCCESS, [AV [u / (wf * ment W 0 0 + d)] [] [] []], tt)
    else (FATAL_ERROR, [], tt)
  | _, _ => (FATAL_ERROR, [], tt)
  end.
Lemma one_ls_exact : lin_exact 1 0 0 one_ls.
Proof.
  intros l t [wf W dx ds Jc dc Jd f dd] bs chk n xs l'. unfold one_ls. cbn [snd].
  destruct dx as [|d [|? ?]]; try discriminate. destruct ds; try discriminate. destruct Jc as [[|u1] [|[|u2]] u3]; try discriminate.
  destruct dc; try discriminate. destruct Jd as [[|u4] [|[|u5]] u6]; try discriminate. destruct dd; try discriminate.
  destruct bs as [|[[|u [|? ?]] [|? ?] [|? ?] [|? ?]] [|? ?]]; try discriminate.
  destruct (Nat.eqb (mc W) 1 && Nat.eqb (mr W) 1) eqn:M; [|discriminate]. apply andb_true_iff in M as [M M']. apply Nat.eqb_eq in M, M'. destruct (Req_EM_T _ 0) as [|D]; [discriminate|]. intros E.
  apply (f_equal (fun p => snd (fst p))) in E. cbn [fst snd] in E. subst xs. constructor; [|constructor]. split; [unfold av_ok; cbn; auto|].
  unfold kmul. cbn [b_x b_s b_c b_d b_wf b_W b_Jc b_Jd b_f ax as_ ac ad]. unfold mmul, mtmul, vset, mk. cbn. f_equal. f_equal.
  rewrite M, M'. unfold lsum, el. cbn. field. exact D.
Qed.
Definition exq (dx : R) : aarg := AArg (Some (Mat 1 1 (fun _ _ => 2))) 1 None dx None 0 (Mat 0 1 (fun _ _ => 0)) None 0 (Mat 0 1 (fun _ _ => 0)) None 0.
Definition exk (dx u : R) : call := Call (exq dx) (ATag 1 0 0 2 0 3 0) [AV [u] [] [] []] false 0.
Example C69_nonvacuous : exists s s', history one_ls [exk 0 4] s /\ history_ok 1 0 0 ([exk 0 4] ++ [exk 1 3]) /\ lin_exact 1 0 0 one_ls /\
  multi_solve one_ls (exq 1) (ATag 1 0 0 2 0 3 0) [AV [3] [] [] []] false 0 s = Some (SUCCESS, [AV [3 / (1 * 2 + 1 * 1)] [] [] []], (5%nat, Kkt 1 (Mat 1 1 (fun _ _ => 2)) [1 * 1] [] (Mat 0 1 (fun _ _ => 0)) [] (Mat 0 1 (fun _ _ => 0)) (-1) []), s') /\
  ~ same_args (exk 0 4) (exk 1 3).
Proof.
  set (s0 := SSt tt None None (ATag 0 0 0 0 0 0 0) 0 0 0 0 0 4).
  assert (M0 : exists xs K s, multi_solve one_ls (exq 0) (ATag 1 0 0 2 0 3 0) [AV [4] [] [] []] false 0 s0 = Some (SUCCESS, xs, K, s) /\
     s = SSt tt (Some (4%nat, Kkt 1 (Mat 1 1 (fun _ _ => 2)) [1 * 0] [] (Mat 0 1 (fun _ _ => 0)) [] (Mat 0 1 (fun _ _ => 0)) (-1) [])) (Some (Mat 1 1 (fun _ _ => 2))) (ATag 1 0 0 2 0 3 0) 1 0 0 0 0 5).
  { assert (PR : prepare (exq 0) (ATag 1 0 0 2 0 3 0) [AV [4] [] [] []] s0 = create (exq 0) (ATag 1 0 0 2 0 3 0) (AV [4] [] [] []) s0).
    { unfold prepare. cbn [s_sys s0 nth]. unfold requires_change.
      cbn [create s_tags s_wf s_dx s_ds s_dc s_dd exq g_W g_wf g_Dx g_dx g_Ds g_ds g_Dc g_dc g_Dd g_dd t_W t_Dx t_Ds t_Jc t_Dc t_Jd t_Dd changed_ptr tag_or_0 Nat.eqb negb orb].
      unfold changed_num. destruct (Req_EM_T 1 1) as [_|X]; [|lra]. destruct (Req_EM_T 0 0) as [_|X]; [|lra]. reflexivity. }
    unfold multi_solve. rewrite PR. cbn [create s_sys exq g_W]. unfold one_ls at 1. cbn -[Rmult Rplus Rdiv Req_EM_T].
    destruct (Req_EM_T (1 * 2 + 1 * 0) 0) as [X|_]; [lra|]. eexists. eexists. eexists. split; reflexivity. }
  destruct M0 as (xs & K & s & M0 & Es).
  assert (M1 : exists s', multi_solve one_ls (exq 1) (ATag 1 0 0 2 0 3 0) [AV [3] [] [] []] false 0 s = Some (SUCCESS, [AV [3 / (1 * 2 + 1 * 1)] [] [] []], (5%nat, Kkt 1 (Mat 1 1 (fun _ _ => 2)) [1 * 1] [] (Mat 0 1 (fun _ _ => 0)) [] (Mat 0 1 (fun _ _ => 0)) (-1) []), s')).
  { subst s. unfold multi_solve, prepare. cbn [s_sys nth]. unfold requires_change.
    cbn [s_tags s_wf s_dx s_ds s_dc s_dd exq g_W g_wf g_Dx g_dx g_Ds g_ds g_Dc g_dc g_Dd g_dd t_W t_Dx t_Ds t_Jc t_Dc t_Jd t_Dd changed_ptr tag_or_0 Nat.eqb negb orb].
    unfold changed_num. destruct (Req_EM_T 1 1) as [_|X]; [|lra]. destruct (Req_EM_T 1 0) as [X|_]; [lra|]. cbn [orb].
    cbn -[Rmult Rplus Rdiv Req_EM_T]. destruct (Req_EM_T (1 * 2 + 1 * 1) 0) as [X|_]; [lra|]. eexists. reflexivity. }
  destruct M1 as (s' & M1). exists s, s'. splits.
  - apply (h_call one_ls [] (exk 0 4) s0 SUCCESS xs K s (h_start one_ls s0 eq_refl) M0).
  - assert (CO : forall a b, call_ok 1 0 0 (exk a b)).
    { intros a b. unfold call_ok. cbn. splits; try discriminate; try congruence; [constructor; cbn; auto|]. constructor; [unfold av_ok; cbn; auto|constructor]. }
    unfold history_ok. splits; [repeat constructor; apply CO| |].
    + intros k1 k2 [<-|[<-|[]]] [<-|[<-|[]]]; cbn; unfold slot; cbn; splits; try congruence; reflexivity.
    + intros k ks' X. assert (k = exk 0 4) as -> by (cbn in X; congruence). discriminate.
  - exact one_ls_exact.
  - exact M1.
  - cbn. intros (_ & _ & _ & X & _). lra.
Qed.

(** d(x) = x, objective gradient 1, no bounds: y_d = -1/2 *)
Definition exP1 : nlp := exP (fun x => x) (fun _ => 1) (fun _ => 1) [] [].
Example C70_nonvacuous : nlp_ok exP1 /\ aug_exact exP1 cramer /\ point_ok exP1 (IV [3] [3] [] [] [] [] [] []) /\
  let v' := fst (least_square_mults cramer (fun _ => true) exP1 exW0 true 1000 (IV [3] [3] [] [] [] [] [] []) tt) in (vyd v').[0] = - / 2.
Proof.
  splits; [apply exP_ok; constructor|apply cramer_exact|unfold point_ok; cbn; splits; reflexivity|].
  cbv zeta. unfold least_square_mults. change (n_c exP1 =? n_x exP1)%nat with false. change (0 <? n_c exP1 + n_s exP1)%nat with true. cbv iota. destruct (Rlt_dec 0 1000) as [_|X]; [|lra]. cbn [andb].
  assert (C : exists y, calc_mults cramer (fun _ => true) exP1 exW0 (IV [3] [3] [] [] [] [] [] []) tt = (Some ([], [y]), tt) /\ y = -/2).
  { unfold calc_mults, cramer. cbv zeta. cbn [g_W g_wf exW0 ment dv g_Dx g_dx g_Ds g_ds g_Dd g_dd g_Jd exP1 exP fn_Jd].
    destruct (Req_EM_T _ 0) as [X|_]; [exfalso; revert X; lra|]. eexists. split; [reflexivity|].
    cbn [ax as_ ac ad vx vs vzL vzU vvL vvU exP fn_g fn_Jd pxL pxU pdL pdU n_s n_c n_x]. unfold pmul, vset, mk. cbn. unfold el. cbn. field. }
  destruct C as (y & C & Ey). rewrite C. rewrite Ey. destruct (Rlt_dec 1000 _) as [X|_].
  - exfalso. revert X. unfold amax. cbn. rewrite Rabs_left by lra. unfold Rmax. repeat destruct (Rle_dec _ _); lra.
  - cbn. reflexivity.
Qed.
Example C71_nonvacuous : exists y z v, ls_duals cramer (exP (fun x => x) (fun x => 1) (fun _ => 1) [O] [O]) exW0 [1] [2] tt = (Some ([], [y], ([z], [], [v], [])), tt).
Proof.
  unfold ls_duals, cramer. cbv zeta. cbn [g_W g_wf exW0 ment dv g_Dx g_dx g_Ds g_ds g_Dd g_dd g_Jd exP fn_Jd n_x n_s pxL pxU pdL pdU].
  destruct (minus_ones_is 1 [O] [] ltac:(intros i [[<-|[]]|[]]; lia)) as [_ M]. rewrite (M O ltac:(lia)). clear M. cbn [scat sumn length nth Nat.eqb].
  destruct (Req_EM_T _ 0) as [X|_]; [exfalso; revert X; cbn; lra|]. do 3 eexists. reflexivity.
Qed.
Example C73_nonvacuous : let o := IOp false false false 1 (/10) 1000 true in
  let v := fst (set_initial cramer (fun _ => true) (exP (fun x => x) (fun _ => 1) (fun _ => 1) [O] []) exW0 (fun x => x) (fun s => s) (fun _ _ _ => [1]) o [3] tt) in
  vx v = [3] /\ vs v = [3] /\ (vzL v).[0] = 1.
Proof.
  cbv zeta. unfold set_initial. cbn [ls_primal_on ls_duals_on]. unfold least_square_mults. cbn [exP n_c n_x n_s Nat.eqb].
  destruct (has_calc _ && _ && _); [|cbn; auto]. destruct (calc_mults _ _ _ _ _ _) as [[[yc yd]|] l]; [|cbn; auto]. destruct (Rlt_dec _ _); cbn; auto.
Qed.
Print Assumptions C69_matrix_is_current.
Print Assumptions C69_rebuilt_iff_changed.
Print Assumptions C69_exact_linear_solver.
Print Assumptions C70_least_squares_multipliers.
Print Assumptions C71_least_squares_duals.
Print Assumptions C71_stationary_at_starting_point_refuted.
Print Assumptions C72_least_squares_primals.
Print Assumptions C72_fits_linearised_constraints_from_zero.
Print Assumptions C72_linearised_refuted.
Print Assumptions C73_initial_multipliers.
