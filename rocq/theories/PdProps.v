(** C63-C68: the primal-dual linear solve and the search direction. *)
From Coq Require Import Reals List Arith Bool Lra Lia.
From Verif Require Import CQModel CQSpec CQVec CQProofs CQFuns CQSlack CQProps PdModel PdSpec PdAlg PdProofs PdLoop PdSearch.
Import ListNotations.
Open Scope R_scope.
Local Notation "v .[ i ]" := (nth i v 0) (at level 1, format "v .[ i ]").

(** * C63: the reduction to the augmented system *)
(** Whatever the linear solver answers (of the right size), the vector u assembled from the answer satisfies the linearised
    complementarity conditions exactly; the residual in the other rows is the residual of the augmented system. *)
Theorem C63_any_answer {H A} (ho : hops H) (ao : augops A) o nx ns nc Y fo refn pretend al be rhs res s w s' :
  handler_ok ho -> sys_ok nx ns nc Y -> solver_dims nx ns nc ao Y -> iv_ok nx ns nc Y rhs -> iv_ok nx ns nc Y res ->
  solve_once ho ao o fo Y refn pretend al be rhs res s = (Some (Some w), s') ->
  let d := h_cur ho (p_h s') in
  exists a chk n x a' u,
    a_solve ao a Y d (aug_rhs Y rhs) chk n = (SUCCESS, x, a') /\
    iv_is nx ns nc Y w (lin2 al (of_iv u) be (of_iv res)) /\
    vx u = ax x /\ vs u = as_ x /\ vyc u = ac x /\ vyd u = ad x /\
    (forall i, (i < nx)%nat -> w_x (newton Y d u) i - (vx rhs).[i] = aug_x Y d x i - (ax (aug_rhs Y rhs)).[i]) /\
    (forall i, (i < ns)%nat -> w_s (newton Y d u) i - (vs rhs).[i] = aug_s Y d x i - (as_ (aug_rhs Y rhs)).[i]) /\
    (forall i, (i < nc)%nat -> w_c (newton Y d u) i - (vyc rhs).[i] = aug_c Y d x i - (ac (aug_rhs Y rhs)).[i]) /\
    (forall i, (i < ns)%nat -> w_d (newton Y d u) i - (vyd rhs).[i] = aug_d Y d x i - (ad (aug_rhs Y rhs)).[i]) /\
    (forall k, (k < length (y_pxL Y))%nat -> (y_zL Y).[k] * (vx u).[nth k (y_pxL Y) O] + (y_sxL Y).[k] * (vzL u).[k] = (vzL rhs).[k]) /\
    (forall k, (k < length (y_pxU Y))%nat -> - (y_zU Y).[k] * (vx u).[nth k (y_pxU Y) O] + (y_sxU Y).[k] * (vzU u).[k] = (vzU rhs).[k]) /\
    (forall k, (k < length (y_pdL Y))%nat -> (y_vL Y).[k] * (vs u).[nth k (y_pdL Y) O] + (y_ssL Y).[k] * (vvL u).[k] = (vvL rhs).[k]) /\
    (forall k, (k < length (y_pdU Y))%nat -> - (y_vU Y).[k] * (vs u).[nth k (y_pdU Y) O] + (y_ssU Y).[k] * (vvU u).[k] = (vvU rhs).[k]).
Proof.
  intros HO K SD Hr Hs E d.
  destruct (op_ok _ _ _ _ _ _ _ _ _ _ _ _ _ (solve_once_post ho ao o Y HO _ _ _ _ _ _ _ _ _ _ E) w eq_refl) as (x & a & a' & chk & n & Ex & ->).
  destruct (back_subst_is nx ns nc Y d K rhs x Hr (SD _ _ _ _ _ _ _ Ex)) as (O1 & X & S0 & C & D0 & Z1 & Z2 & Z3 & Z4).
  exists a, chk, n, x, a', (back_subst Y rhs x). split; [exact Ex|]. split; [apply iv_add_one; assumption|].
  do 4 (split; [reflexivity|]).
  splits; intros i Hi; [rewrite X|rewrite S0|rewrite C|rewrite D0|apply Z1|apply Z2|apply Z3|apply Z4]; try exact Hi; ring.
Qed.
(** If it answers with a solution of the augmented system, u solves the whole Newton system. *)
Theorem C63_exact_answer {H A} (ho : hops H) (ao : augops A) o nx ns nc Y fo refn pretend al be rhs res s w s' :
  handler_ok ho -> sys_ok nx ns nc Y -> solver_exact nx ns nc ao Y -> iv_ok nx ns nc Y rhs -> iv_ok nx ns nc Y res ->
  solve_once ho ao o fo Y refn pretend al be rhs res s = (Some (Some w), s') ->
  exists u, solves nx ns nc Y (h_cur ho (p_h s')) rhs u /\ iv_is nx ns nc Y w (lin2 al (of_iv u) be (of_iv res)).
Proof.
  intros HO K SE Hr Hs E.
  destruct (op_ok _ _ _ _ _ _ _ _ _ _ _ _ _ (solve_once_post ho ao o Y HO _ _ _ _ _ _ _ _ _ _ E) w eq_refl) as (x & a & a' & chk & n & Ex & ->).
  pose proof (back_subst_solves nx ns nc Y _ K rhs x Hr (SE _ _ _ _ _ _ _ Ex)) as S1.
  exists (back_subst Y rhs x). split; [exact S1|]. apply iv_add_one; [apply S1|exact Hs].
Qed.
(** No solution is lost: what solves the Newton system also solves the augmented system, and two solutions of the Newton
    system that agree in x, s, y_c, y_d are the same. *)
Theorem C63_no_other_solution nx ns nc Y d rhs v : sys_ok nx ns nc Y -> iv_ok nx ns nc Y rhs -> solves nx ns nc Y d rhs v ->
  solves_aug nx ns nc Y d (aug_rhs Y rhs) (AV (vx v) (vs v) (vyc v) (vyd v)) /\
  forall v', solves nx ns nc Y d rhs v' -> vx v' = vx v -> vs v' = vs v ->
    (forall k, ((k < length (y_pxL Y))%nat -> (vzL v').[k] = (vzL v).[k]) /\ ((k < length (y_pxU Y))%nat -> (vzU v').[k] = (vzU v).[k]) /\
               ((k < length (y_pdL Y))%nat -> (vvL v').[k] = (vvL v).[k]) /\ ((k < length (y_pdU Y))%nat -> (vvU v').[k] = (vvU v).[k])).
Proof.
  intros K Hr S1. destruct (solves_back nx ns nc Y d K rhs v Hr S1) as [E1 F1]. split; [exact E1|].
  intros v' S2 Ex Es k. destruct (solves_back nx ns nc Y d K rhs v' Hr S2) as [_ F2].
  destruct (F1 k) as (A1 & A2 & A3 & A4). destruct (F2 k) as (B1 & B2 & B3 & B4). rewrite Ex in *. rewrite Es in *.
  splits; intros Hk; [rewrite A1, B1|rewrite A2, B2|rewrite A3, B3|rewrite A4, B4]; auto.
Qed.

(** * C64: the residual, and iterative refinement *)
Theorem C64_residual nx ns nc Y d rhs res : sys_ok nx ns nc Y -> iv_ok nx ns nc Y rhs -> iv_ok nx ns nc Y res ->
  iv_is nx ns nc Y (residuals Y d rhs res) (lin2 1 (newton Y d res) (-1) (of_iv rhs)) /\
  (solves nx ns nc Y d rhs res <->
   iv_is nx ns nc Y (residuals Y d rhs res) (Rows (fun _ => 0) (fun _ => 0) (fun _ => 0) (fun _ => 0) (fun _ => 0) (fun _ => 0) (fun _ => 0) (fun _ => 0))).
Proof. intros K Hr Hs. split; [apply residuals_is; assumption|apply resid_zero; assumption]. Qed.
(** With an exact solver one refinement step leads from any vector to a solution of the same system. *)
Theorem C64_refinement_step {H A} (ho : hops H) (ao : augops A) o nx ns nc Y fo rhs v s w s' :
  handler_ok ho -> sys_ok nx ns nc Y -> solver_exact nx ns nc ao Y -> iv_ok nx ns nc Y rhs -> iv_ok nx ns nc Y v ->
  p_cache s = Some (y_id Y) ->
  solve_once ho ao o fo Y true false (-1) 1 (residuals Y (h_cur ho (p_h s)) rhs v) v s = (Some (Some w), s') ->
  h_cur ho (p_h s') = h_cur ho (p_h s) /\ solves nx ns nc Y (h_cur ho (p_h s)) rhs w.
Proof.
  intros HO K SE Hr Hv Cs E. destruct (step_exact ho ao o Y HO rhs nx ns nc K Hr SE fo v s s' w Cs Hv E) as [S1 Eh].
  rewrite Eh in S1. rewrite Eh. auto.
Qed.
(** With an exact solver Solve returns alpha * (solution) + beta * (old value), after exactly min_refinement_steps
    refinement steps, and never pretends that the system is singular. (alpha <> 0: C65_alpha_zero_refuted) *)
Theorem C64_exact_solver {H A} (ho : hops H) (ao : augops A) o nx ns nc Y fuel fr fo al be rhs res0 inexact s v s' :
  handler_ok ho -> popts_ok o -> sys_ok nx ns nc Y -> solver_exact nx ns nc ao Y -> iv_ok nx ns nc Y rhs -> iv_ok nx ns nc Y res0 -> al <> 0 ->
  solve ho ao o fuel fr fo Y al be rhs res0 inexact false s = (R_true v, s') ->
  exists w new, solves nx ns nc Y (h_cur ho (p_h s')) rhs w /\ iv_is nx ns nc Y v (lin2 al (of_iv w) be (of_iv res0)) /\
    since s s' new /\ ~ In E_singular new /\ (inexact = false -> count is_first new = 1%nat /\ count is_ref new = min_ref o).
Proof.
  intros HO OO K SE Hr Hs Ha E. unfold solve in E.
  destruct (solve_loop ho ao o fuel fr fo Y inexact false rhs (Fl false false false) res0 s) as [r s1] eqn:L.
  destruct r as [w|w| |]; [|discriminate|discriminate|discriminate]. injection E as <- <-.
  destruct (loop_exact ho ao o Y HO rhs OO nx ns nc K Hr SE fr fo fuel inexact false (Fl false false false) res0 s s1 w Hs ltac:(discriminate) eq_refl eq_refl L) as ([S1|(X & _)] & new & E1 & E2 & E3); [|discriminate].
  exists w, new. split; [exact S1|]. split.
  - destruct (Req_EM_T al 0) as [X|_]; [contradiction|].
    pose proof (iv_scal nx ns nc Y al w (proj1 S1)) as L1. destruct (Req_EM_T be 0) as [->|_].
    + eapply iv_is_ext; [exact L1|..]; intros i _; unfold lin2; cbn [w_x w_s w_c w_d w_zL w_zU w_vL w_vU]; ring.
    + pose proof (iv_axpy nx ns nc Y be _ _ (iv_is_ok _ _ _ _ _ _ L1) Hs) as L2.
      destruct L1 as ((_&M1)&(_&M2)&(_&M3)&(_&M4)&(_&M5)&(_&M6)&(_&M7)&(_&M8)).
      unfold lin2, of_iv in *. cbn [w_x w_s w_c w_d w_zL w_zU w_vL w_vU] in *.
      eapply iv_is_ext; [exact L2|..]; intros i Hi; cbn [w_x w_s w_c w_d w_zL w_zU w_vL w_vU];
        rewrite ?M1, ?M2, ?M3, ?M4, ?M5, ?M6, ?M7, ?M8 by exact Hi; ring.
  - split; [exact E1|]. split; [|intros Hi; apply E3; [reflexivity|exact Hi]].
    intros X. unfold count in E2. apply length_zero_iff_nil in E2. assert (Y0 : In E_singular (filter is_singular new)) by (apply filter_In; split; [exact X|reflexivity]).
    rewrite E2 in Y0. destruct Y0.
Qed.

(** * C65: the accuracy of what Solve returns *)
(** Any solver whose answers have the right size. [w] is what is then scaled by alpha and added to beta times the old value. *)
Theorem C65_accuracy {H A} (ho : hops H) (ao : augops A) o nx ns nc Y fuel fr fo al be rhs res0 improve s v s' :
  handler_ok ho -> popts_ok o -> sys_ok nx ns nc Y -> solver_dims nx ns nc ao Y -> iv_ok nx ns nc Y rhs -> iv_ok nx ns nc Y res0 -> al <> 0 ->
  solve ho ao o fuel fr fo Y al be rhs res0 false improve s = (R_true v, s') ->
  let d := h_cur ho (p_h s') in
  exists w new, iv_is nx ns nc Y v (lin2 al (of_iv w) be (of_iv res0)) /\ since s s' new /\ (min_ref o <= count is_ref new)%nat /\
    (resid_small (rr_max o) rhs w (residuals Y d rhs w) \/
     ((min_ref o < count is_ref new)%nat /\
      (In E_singular new \/
       (resid_below (rr_sing o) rhs w (residuals Y d rhs w) /\ (p_impr s' = true \/ In (E_quality false) new))))).
Proof.
  intros HO OO K SD Hr Hs Ha E d. unfold solve in E.
  destruct (solve_loop ho ao o fuel fr fo Y false improve rhs (Fl false false false) res0 s) as [r s1] eqn:L.
  destruct r as [w|w| |]; [|discriminate|discriminate|discriminate]. injection E as <- <-.
  pose proof (loop_dims ho ao o Y HO rhs nx ns nc K Hr SD fr fo fuel false improve _ _ _ _ _ Hs L) as Hw.
  destruct (loop_facts ho ao o Y HO rhs OO fr fo fuel 3 improve (Fl false false false) res0 s s1 (R_true w) ltac:(right; right; lia) ltac:(auto) L) as (new & E1 & _ & _ & E2 & _).
  destruct (E2 w eq_refl) as [M1 M2]. exists w, new. split; [|split; [exact E1|split; [exact M1|]]].
  - destruct (Req_EM_T al 0) as [X|_]; [contradiction|].
    pose proof (iv_scal nx ns nc Y al w Hw) as L1. destruct (Req_EM_T be 0) as [->|_].
    + eapply iv_is_ext; [exact L1|..]; intros i _; unfold lin2; cbn [w_x w_s w_c w_d w_zL w_zU w_vL w_vU]; ring.
    + pose proof (iv_axpy nx ns nc Y be _ _ (iv_is_ok _ _ _ _ _ _ L1) Hs) as L2.
      destruct L1 as ((_&N1)&(_&N2)&(_&N3)&(_&N4)&(_&N5)&(_&N6)&(_&N7)&(_&N8)).
      unfold lin2, of_iv in *. cbn [w_x w_s w_c w_d w_zL w_zU w_vL w_vU] in *.
      eapply iv_is_ext; [exact L2|..]; intros i Hi; cbn [w_x w_s w_c w_d w_zL w_zU w_vL w_vU];
        rewrite ?N1, ?N2, ?N3, ?N4, ?N5, ?N6, ?N7, ?N8 by exact Hi; ring.
  - destruct M2 as [M2|(M2 & M3)]; [left; apply (not_gt_small ho Y rhs nx ns nc K Hr); [exact Hw|apply (po_max _ OO)|exact M2]|right; split; [exact M2|]].
    destruct M3 as [M3|[M3|(M3 & M4)]]; [discriminate M3|left; exact M3|]. right. split; [|exact M4]. apply lt_below. exact M3.
Qed.

(** * Examples: one variable, no constraints, no bounds *)
Definition ev1 (x : R) : iv := IV [x] [] [] [] [] [] [] [].
Definition ey1 (w : R) : psys := PSys [7%nat] (Mat 1 1 (fun _ _ => w)) (Mat 0 1 (fun _ _ => 0)) (Mat 0 1 (fun _ _ => 0)) [] [] [] [] [] [] [] [] [] [] [] [] [0] [].
Definition d0 : deltas := Dl 0 0 0 0.
(** perturbations: always zero; the handler gives up at once when the inertia is wrong *)
Definition ho0 : hops unit := HOps unit (fun _ => d0) (fun h => (d0, h)) (fun h => (Some d0, h)) (fun h => (Some d0, h)).
Definition ho1 : hops unit := HOps unit (fun _ => d0) (fun h => (d0, h)) (fun h => (None, h)) (fun h => (None, h)).
(** a solver that always answers zero; an exact one for the system with W = w, which has one negative eigenvalue if w < 0 *)
Definition ao0 : augops unit := AOps unit (fun a _ _ _ _ _ => (SUCCESS, AV [0] [] [] [], a)) (fun _ => O) (fun a => (false, a)).
Definition ao1 (w : R) : augops unit := AOps unit (fun a Y d b chk n =>
    if Req_EM_T (w + d_x d) 0 then (SINGULAR, b, a)
    else if chk && (if Rlt_dec (w + d_x d) 0 then true else false) then (WRONG_INERTIA, b, a)
    else (SUCCESS, AV [(ax b).[0] / (w + d_x d)] [] [] [], a))
  (fun _ => if Rlt_dec w 0 then 1%nat else O) (fun a => (false, a)).
Definition o0 (mn mx : nat) : popts := POp mn mx (1/100) (1/10) (99/100) 0 true.
Lemma o0_ok mn mx : (mn <= mx)%nat -> popts_ok (o0 mn mx).
Proof. intros Hm. constructor; cbn; try lra. exact Hm. Qed.
Lemma ho0_ok : handler_ok ho0. Proof. unfold handler_ok, ho0. cbn. splits; auto; intros h d E; congruence. Qed.
Lemma ho1_ok : handler_ok ho1. Proof. unfold handler_ok, ho1. cbn. splits; auto; intros h d E; discriminate. Qed.
Lemma ey1_ok w : sys_ok 1 0 0 (ey1 w).
Proof.
  constructor; cbn; auto; try lia; try (intros; lia); try (intros i [[]|[]]); try (splits; intros; lia).
  - split; [reflexivity|]. intros [|i] Hi; [|lia]. unfold scat. cbn. ring.
  - split; [reflexivity|]. intros; lia.
Qed.
Lemma ev1_ok w x : iv_ok 1 0 0 (ey1 w) (ev1 x).
Proof. unfold iv_ok, iv_is. cbn. splits; try (split; [reflexivity|]; intros; try lia; reflexivity). Qed.
Lemma ao0_dims w : solver_dims 1 0 0 ao0 (ey1 w).
Proof. intros a d b chk n x a' E. cbn in E. injection E as <- <-. repeat split. Qed.
Lemma ao1_exact w : solver_exact 1 0 0 (ao1 w) (ey1 w).
Proof.
  intros a d b chk n x a' E. cbn in E. destruct (Req_EM_T (w + d_x d) 0) as [|N]; [discriminate|].
  destruct (chk && (if Rlt_dec (w + d_x d) 0 then true else false)); [discriminate|]. injection E as <- <-.
  unfold solves_aug, av_ok, aug_x, aug_s, aug_c, aug_d, Jv, JTv. cbn. splits; auto; try (intros; lia).
  intros [|i] Hi; [|lia]. cbn. field. exact N.
Qed.
Definition s0 : pst unit unit := PSt tt tt false None [].

(** the residual of zero *)
Lemma amax1 x : iv_amax (ev1 x) = Rabs x.
Proof.
  assert (A0 : amax [] = 0) by reflexivity. pose proof (Rabs_pos x) as Px.
  assert (A1 : amax [x] = Rabs x) by (unfold amax; cbn; rewrite Rmax_right by exact Px; reflexivity).
  unfold iv_amax, ev1. cbn [vx vs vyc vyd vzL vzU vvL vvU fold_left]. rewrite A0, A1.
  rewrite (Rmax_right 0 (Rabs x)) by exact Px. rewrite !(Rmax_left (Rabs x) 0) by exact Px. reflexivity.
Qed.
Lemma resid1 w b x : residuals (ey1 w) d0 (ev1 b) (ev1 x) = ev1 (w * x - b).
Proof.
  unfold residuals, ey1, d0, ev1. cbn [y_W y_Jc y_Jd y_pxL y_pxU y_pdL y_pdU y_zL y_zU y_vL y_vU y_sxL y_sxU y_ssL y_ssU vx vs vyc vyd vzL vzU vvL vvU d_x d_s d_c d_d].
  destruct (Req_EM_T 0 0) as [_|N]; [|lra]. unfold mmul, mtmul, pmul, ptmul, add_two, emul, mk, dim, el, vmap2. cbn. f_equal. f_equal. ring.
Qed.
Lemma ratio1 b x r : Rabs b + Rabs x <> 0 -> Rmin (Rabs x) (1000000 * Rabs b) + Rabs b <> 0 ->
  resid_ratio (ev1 b) (ev1 x) (ev1 r) = Fin (Rabs r / (Rmin (Rabs x) (1000000 * Rabs b) + Rabs b)).
Proof.
  intros N1 N2. unfold resid_ratio. rewrite !amax1. destruct (Req_EM_T (Rabs b + Rabs x) 0) as [|_]; [contradiction|].
  destruct (Req_EM_T (Rmin (Rabs x) (1000000 * Rabs b) + Rabs b) 0) as [|_]; [contradiction|]. reflexivity.
Qed.
Lemma ratio_zero : resid_ratio (ev1 1) (ev1 0) (residuals (ey1 1) d0 (ev1 1) (ev1 0)) = Fin 1.
Proof.
  rewrite resid1, ratio1; replace (1 * 0 - 1) with (-1) by ring; rewrite ?Rabs_Ropp, ?Rabs_R1, ?Rabs_R0, ?Rmin_left by lra; try lra.
  f_equal. replace (-1) with (- (1)) by ring. rewrite Rabs_Ropp, Rabs_R1. field.
Qed.
(** one call of the solver that answers zero *)
Notation st1 := (pst unit unit).
Definition is7 (s : st1) : bool := match p_cache s with Some k => if list_eq_dec Nat.eq_dec k [7%nat] then true else false | None => false end.
Lemma once_zero mn mx fo refn pretend al be b x (s : st1) : exists s', solve_once ho0 ao0 (o0 mn mx) (S (S fo)) (ey1 1) refn pretend al be (ev1 b) (ev1 x) s = (Some (Some (ev1 (be * x))), s') /\
  p_ev s' = E_aug [7%nat] d0 (negb (is7 s && negb pretend)) SUCCESS :: E_once [7%nat] refn :: p_ev s /\
  p_cache s' = Some [7%nat] /\ p_impr s' = (if is7 s then p_impr s else false).
Proof.
  unfold solve_once, is7. cbn [log p_cache ey1 y_id].
  assert (V : forall al be b x, ivmap2 (fun v y => add_one al v be y) (back_subst (ey1 1) (ev1 b) (AV [0] [] [] [])) (ev1 x) = ev1 (be * x)).
  { intros. unfold ivmap2, back_subst, ey1, ev1, add_one, add_two, sinvblrm, mk, dim, el. cbn. f_equal. f_equal. ring. }
  assert (C : curv_on (o0 mn mx) = false) by (unfold curv_on; cbn; destruct (Rlt_dec 0 0); [lra|reflexivity]).
  destruct (p_cache s) as [k|] eqn:Cs.
  - destruct (list_eq_dec Nat.eq_dec k [7%nat]) as [->|N]; destruct pretend.
    + cbn [andb negb h_new ho0 pert_loop fst snd]. rewrite C. cbn. rewrite V. eexists. split; [reflexivity|]. cbn. splits; [reflexivity|exact Cs|reflexivity].
    + cbn. rewrite V. eexists. split; [reflexivity|]. cbn. splits; [reflexivity|exact Cs|reflexivity].
    + cbn [andb negb h_new ho0 pert_loop fst snd]. rewrite C. cbn. rewrite V. eexists. split; [reflexivity|]. cbn. splits; reflexivity.
    + cbn [andb negb h_new ho0 pert_loop fst snd]. rewrite C. cbn. rewrite V. eexists. split; [reflexivity|]. cbn. splits; reflexivity.
  - destruct pretend; cbn [andb negb h_new ho0 pert_loop fst snd]; rewrite C; cbn; rewrite V; eexists; (split; [reflexivity|]); cbn; splits; reflexivity.
Qed.
Lemma is7_eq (s : st1) : p_cache s = Some [7%nat] -> is7 s = true.
Proof. unfold is7. intros ->. destruct (list_eq_dec Nat.eq_dec [7%nat] [7%nat]); [reflexivity|congruence]. Qed.
(** one refinement loop with it *)
Notation rho := (resid_ratio (ev1 1) (ev1 0) (residuals (ey1 1) d0 (ev1 1) (ev1 0))).
Lemma pass_zero : rgt rho (Fin (1/100)) = true.
Proof. rewrite ratio_zero. cbn. destruct (Rlt_dec (1/100) 1); [reflexivity|lra]. Qed.
Lemma refine_zero fuel fo f (s : st1) : p_cache s = Some [7%nat] -> p_impr s = false -> exists s',
  refine ho0 ao0 (o0 0 0) (S fuel) (S (S fo)) (ey1 1) (ev1 1) 0 rho rho f (ev1 0) (residuals (ey1 1) d0 (ev1 1) (ev1 0)) s
  = (Some (Some (if f_last f then Fl false false true else Fl false true true, ev1 0)), s') /\
  p_ev s' = (if f_last f then [] else [E_singular; E_quality false]) ++ [E_aug [7%nat] d0 false SUCCESS; E_once [7%nat] true] ++ p_ev s /\
  p_cache s' = Some [7%nat] /\ p_impr s' = false.
Proof.
  intros Cs Im. cbn [refine]. change (rr_max (o0 0 0)) with (1/100). rewrite pass_zero, orb_true_r. cbn [h_cur ho0]. rewrite (resid1 1 1 0). replace (1 * 0 - 1) with (-1) by ring.
  destruct (once_zero 0 0 fo true false (-1) 1 (-1) 0 s) as (s1 & E1 & E2 & E3 & E4). rewrite E1. cbv iota zeta. replace (1 * 0) with 0 by ring.
  rewrite pass_zero. rewrite (is7_eq _ Cs) in *. rewrite Im in E4. cbn [negb andb] in E2.
  cbn [min_ref max_ref o0 Nat.ltb Nat.leb andb orb].
  unfold give_up. rewrite E4. destruct (f_last f).
  - eexists. split; [reflexivity|]. splits; assumption.
  - cbn [negb andb call_incr a_incr ao0 log set_impr set_a p_impr].
    replace (rgt (Fin (rr_sing (o0 0 0))) rho) with false.
    2:{ rewrite ratio_zero. cbn. destruct (Rlt_dec 1 (1/10)); [lra|reflexivity]. }
    eexists. split; [reflexivity|]. cbn. rewrite E2. splits; [reflexivity|exact E3|reflexivity].
Qed.
(** the whole call: two passes, each with max_refinement_steps + 1 = 1 refinement steps; the result is 0, the residual is
    as large as the right hand side *)
Lemma solve_zero : exists s', solve ho0 ao0 (o0 0 0) 2 1 2 (ey1 1) 1 0 (ev1 1) (ev1 5) false false s0 = (R_true (ev1 0), s') /\
  p_ev s' = [E_aug [7%nat] d0 false SUCCESS; E_once [7%nat] true; E_aug [7%nat] d0 true SUCCESS; E_once [7%nat] false; E_singular; E_quality false;
             E_aug [7%nat] d0 false SUCCESS; E_once [7%nat] true; E_aug [7%nat] d0 true SUCCESS; E_once [7%nat] false].
Proof.
  unfold solve. cbn [solve_loop f_pretend f_last].
  destruct (once_zero 0 0 0 false false 1 0 1 5 s0) as (s1 & E1 & E2 & E3 & E4). rewrite E1. cbv iota zeta. replace (0 * 5) with 0 by ring.
  cbn [h_cur ho0]. cbn [is7 s0 p_cache p_impr] in *.
  destruct (refine_zero 0 0 (Fl false false false) s1 E3 E4) as (s2 & F1 & F2 & F3 & F4). rewrite F1. cbn [f_last f_resolve f_pretend negb andb].
  destruct (once_zero 0 0 0 false true 1 0 1 0 s2) as (s3 & G1 & G2 & G3 & G4). rewrite G1. cbv iota zeta. replace (0 * 0) with 0 by ring.
  rewrite (is7_eq _ F3), F4 in G4. rewrite (is7_eq _ F3) in G2.
  destruct (refine_zero 0 0 (Fl false false true) s3 G3 G4) as (s4 & H1 & H2 & H3 & H4). cbn [h_cur ho0]. rewrite H1. cbn [f_last f_resolve f_pretend negb andb].
  destruct (Req_EM_T 1 0) as [X|_]; [lra|]. destruct (Req_EM_T 0 0) as [_|X]; [|lra].
  exists s4. split.
  - f_equal. f_equal. unfold ivmap, ivmap2, ev1, vmap. cbn. f_equal. f_equal. ring.
  - rewrite H2, G2, F2, E2. reflexivity.
Qed.
Theorem C65_accuracy_guarantee_refuted :
  ~ (forall (ho : hops unit) (ao : augops unit) o nx ns nc Y fuel fr fo rhs res0 s v s',
       handler_ok ho -> popts_ok o -> sys_ok nx ns nc Y -> solver_dims nx ns nc ao Y -> iv_ok nx ns nc Y rhs -> iv_ok nx ns nc Y res0 ->
       solve ho ao o fuel fr fo Y 1 0 rhs res0 false false s = (R_true v, s') ->
       resid_small (rr_sing o) rhs v (residuals Y (h_cur ho (p_h s')) rhs v)).
Proof.
  intros F. destruct solve_zero as (s' & E & _).
  specialize (F ho0 ao0 (o0 0 0) _ _ _ (ey1 1) _ _ _ (ev1 1) (ev1 5) s0 (ev1 0) s' ho0_ok (o0_ok 0 0 (le_n _)) (ey1_ok 1) (ao0_dims 1) (ev1_ok 1 1) (ev1_ok 1 5) E).
  cbn [h_cur ho0] in F. rewrite resid1 in F. replace (1 * 0 - 1) with (-1) in F by ring.
  specialize (F _ _ _ (iv_amax_is _) (iv_amax_is _) (iv_amax_is _)). rewrite !amax1 in F. cbn [rr_sing o0] in F.
  rewrite Rabs_R0, Rabs_R1, Rmin_left in F by lra. replace (-1) with (- (1)) in F by ring. rewrite Rabs_Ropp, Rabs_R1 in F. lra.
Qed.

(** * C66: the amount of work *)
Theorem C66_work {H A} (ho : hops H) (ao : augops A) o Y fuel fr fo al be rhs res0 improve s r s' :
  handler_ok ho -> popts_ok o ->
  solve ho ao o fuel fr fo Y al be rhs res0 false improve s = (r, s') ->
  exists new, since s s' new /\ (count is_first new <= 3)%nat /\ (count is_ref new <= 3 * (max_ref o + 1))%nat /\
    (forall v, r = R_true v -> (min_ref o <= count is_ref new)%nat) /\
    ((exists v, r = R_false v) \/ r = R_abort -> In (E_fail (y_id Y)) (p_ev s')).
Proof.
  intros HO OO E. unfold solve in E.
  destruct (solve_loop ho ao o fuel fr fo Y false improve rhs (Fl false false false) res0 s) as [q s1] eqn:L.
  destruct (loop_facts ho ao o Y HO rhs OO fr fo fuel 3 improve (Fl false false false) res0 s s1 q ltac:(right; right; lia) ltac:(auto) L) as (new & E1 & E2 & E3 & E4 & E5).
  exists new. assert (s' = s1) by (destruct q; congruence). subst s1. split; [exact E1|]. split; [exact E2|]. split; [lia|]. split.
  - intros v Hv. destruct q as [w|w| |]; try (injection E as <-; discriminate). apply (E4 w eq_refl).
  - intros Hr. destruct q as [w|w| |]; injection E as <-; destruct Hr as [[v Hr]|Hr]; try discriminate; exact E5.
Qed.
(** It returns, provided each single solve does (C15 is about that loop). *)
Theorem C66_terminates {H A} (ho : hops H) (ao : augops A) o Y fr fo al be rhs res0 inexact improve s :
  handler_ok ho -> popts_ok o -> (max_ref o < fr)%nat ->
  (forall refn pretend al be b v s, fst (solve_once ho ao o fo Y refn pretend al be b v s) <> None) ->
  fst (solve ho ao o 3 fr fo Y al be rhs res0 inexact improve s) <> R_never.
Proof.
  intros HO OO Hf HT. pose proof (loop_terminates ho ao o Y HO rhs OO fo HT fr 3 Hf 3 inexact improve (Fl false false false) res0 s ltac:(right; right; lia) (le_n _) ltac:(auto)) as T.
  unfold solve. destruct (solve_loop ho ao o 3 fr fo Y inexact improve rhs (Fl false false false) res0 s) as [q s1]. cbn [fst] in T. destruct q; cbn; congruence.
Qed.
(** The option max_refinement_steps is exceeded by one in each pass. *)
Theorem C66_max_refinement_steps_refuted :
  ~ (forall (ho : hops unit) (ao : augops unit) o Y fuel fr fo rhs res0 s r s' new,
       handler_ok ho -> popts_ok o -> solve ho ao o fuel fr fo Y 1 0 rhs res0 false false s = (r, s') -> since s s' new ->
       (count is_ref new <= max_ref o * count is_first new)%nat).
Proof.
  intros F. destruct solve_zero as (s' & E & Ev).
  specialize (F ho0 ao0 (o0 0 0) (ey1 1) _ _ _ (ev1 1) (ev1 5) s0 _ s' _ ho0_ok (o0_ok 0 0 (le_n _)) E (eq_trans Ev (eq_sym (app_nil_r _)))).
  cbn in F. lia.
Qed.
(** a call that only solves once, with the exact solver *)
Lemma solve_one w al : w <> 0 -> 0 < w -> exists s', solve ho0 (ao1 w) (o0 0 0) 1 1 2 (ey1 w) al 0 (ev1 1) (ev1 5) true false s0 =
  (R_true (ev1 (if Req_EM_T al 0 then 1 / w else al * (1 / w))), s') /\ p_h s' = tt.
Proof.
  intros N Hw. unfold solve. cbn [solve_loop f_pretend f_last]. unfold solve_once. cbn [log s0 p_cache p_h p_a p_impr p_ev ey1 y_id andb negb h_new ho0 pert_loop].
  assert (C : curv_on (o0 0 0) = false) by (unfold curv_on; cbn; destruct (Rlt_dec 0 0); [lra|reflexivity]). rewrite C.
  unfold call_aug. cbn [negb a_solve ao1]. change (d_x d0) with 0.
  destruct (Req_EM_T (w + 0) 0) as [X|_]; [exfalso; lra|]. destruct (Rlt_dec (w + 0) 0) as [X|_]; [exfalso; lra|]. cbn [andb].
  destruct (Req_EM_T 0 0) as [_|X]; [|lra]. cbn [andb].
  assert (V : ivmap2 (fun v y => add_one 1 v 0 y) (back_subst (ey1 w) (ev1 1) (AV [(ax (aug_rhs (ey1 w) (ev1 1))).[0] / (w + 0)] [] [] [])) (ev1 5) = ev1 (1 / w)).
  { unfold ivmap2, back_subst, ey1, ev1, add_one, add_two, sinvblrm, mk, dim, el, aug_rhs, pmsinvz. cbn. f_equal. f_equal. field. exact N. }
  rewrite V. eexists. split; [|destruct (p_h _); reflexivity].
  destruct (Req_EM_T al 0) as [_|_]; reflexivity.
Qed.
(** alpha = 0: the new value is not 0 * (solution) + beta * (old value) *)
Theorem C65_alpha_zero_refuted :
  ~ (forall (ho : hops unit) (ao : augops unit) o nx ns nc Y fuel fr fo al rhs res0 s v s',
       handler_ok ho -> popts_ok o -> sys_ok nx ns nc Y -> solver_exact nx ns nc ao Y -> iv_ok nx ns nc Y rhs -> iv_ok nx ns nc Y res0 ->
       solve ho ao o fuel fr fo Y al 0 rhs res0 true false s = (R_true v, s') ->
       exists w, solves nx ns nc Y (h_cur ho (p_h s')) rhs w /\ iv_is nx ns nc Y v (lin2 al (of_iv w) 0 (of_iv res0))).
Proof.
  intros F. destruct (solve_one 1 0 ltac:(lra) ltac:(lra)) as (s' & E & _).
  destruct (F ho0 (ao1 1) (o0 0 0) _ _ _ (ey1 1) _ _ _ 0 (ev1 1) (ev1 5) s0 _ s' ho0_ok (o0_ok 0 0 (le_n _)) (ey1_ok 1) (ao1_exact 1) (ev1_ok 1 1) (ev1_ok 1 5) E) as (w & _ & ((_ & L) & _)).
  specialize (L O ltac:(lia)). unfold lin2 in L. cbn [w_x of_iv ev1 vx nth] in L. destruct (Req_EM_T 0 0) as [_|X]; [|lra]. lra.
Qed.

(** * C67: the inertia of the matrix in use *)
(** Any history of calls, each with its own matrix and arguments *)
Inductive pd_reach {H A} (ho : hops H) (ao : augops A) (o : popts) : pst H A -> Prop :=
| pd_start s : p_cache s = None -> pd_reach ho ao o s
| pd_step fuel fr fo Y al be rhs res0 inexact improve s r s' : pd_reach ho ao o s ->
    solve ho ao o fuel fr fo Y al be rhs res0 inexact improve s = (r, s') -> r <> R_never -> pd_reach ho ao o s'.
(** After a successful call the inertia of the matrix with the perturbation in use has been checked (without
    neg_curv_test_tol), unless some call with this matrix failed. [improve] asks for a matrix solved before. *)
Theorem C67_inertia_checked {H A} (ho : hops H) (ao : augops A) o Y fuel fr fo al be rhs res0 inexact improve s v s' :
  handler_ok ho -> popts_ok o -> pd_reach ho ao o s -> (improve = true -> p_cache s = Some (y_id Y)) ->
  solve ho ao o fuel fr fo Y al be rhs res0 inexact improve s = (R_true v, s') ->
  In (E_aug (y_id Y) (h_cur ho (p_h s')) (if Rlt_dec 0 (curv_tol o) then false else true) SUCCESS) (p_ev s') \/ In (E_fail (y_id Y)) (p_ev s').
Proof.
  intros HO OO HR Him E.
  assert (I0 : forall s, pd_reach ho ao o s -> inertia_inv ho o s).
  { clear - HO. induction 1 as [s Hs|fuel fr fo Y al be rhs res0 inexact improve s r s' _ IH E Hr].
    - intros id X. congruence.
    - unfold solve in E. destruct (solve_loop ho ao o fuel fr fo Y inexact improve rhs (Fl false false false) res0 s) as [q s1] eqn:L.
      assert (s' = s1 /\ q <> R_never) as [-> Hq] by (destruct q; injection E as <- <-; split; try reflexivity; try discriminate; congruence).
      eapply loop_inertia; eassumption. }
  specialize (I0 s HR). unfold solve in E.
  destruct (solve_loop ho ao o fuel fr fo Y inexact improve rhs (Fl false false false) res0 s) as [q s1] eqn:L.
  destruct q as [w|w| |]; [|discriminate|discriminate|discriminate]. injection E as _ <-.
  pose proof (loop_cached ho ao o Y HO rhs OO fr fo fuel inexact improve _ _ _ _ _ Him L) as Cs.
  pose proof (loop_inertia ho ao o Y HO rhs fr fo fuel inexact improve _ _ _ _ _ L ltac:(discriminate) I0 _ Cs) as R.
  unfold curv_on in R. destruct (Rlt_dec 0 (curv_tol o)); exact R.
Qed.
(** The exception is real: after a failed call the same matrix counts as factorised, and the next call takes the solution
    of a matrix with the wrong inertia without looking. Here W = -1, and the solver is exact and reports the inertia rightly. *)
Lemma solve_fail : exists s', solve ho1 (ao1 (-1)) (o0 0 0) 1 1 2 (ey1 (-1)) 1 0 (ev1 1) (ev1 5) true false s0 = (R_false (ev1 5), s') /\
  p_cache s' = Some [7%nat] /\ p_ev s' = [E_fail [7%nat]; E_aug [7%nat] d0 true WRONG_INERTIA; E_once [7%nat] false].
Proof.
  unfold solve. cbn [solve_loop f_pretend f_last]. unfold solve_once. cbn [log s0 p_cache p_h p_a p_impr p_ev ey1 y_id andb negb h_new ho1 pert_loop].
  assert (C : curv_on (o0 0 0) = false) by (unfold curv_on; cbn; destruct (Rlt_dec 0 0); [lra|reflexivity]). rewrite C.
  unfold call_aug. cbn [negb a_solve ao1]. change (d_x d0) with 0.
  destruct (Req_EM_T (-1 + 0) 0) as [X|_]; [exfalso; lra|]. destruct (Rlt_dec (-1 + 0) 0) as [_|X]; [|exfalso; lra]. cbn [andb].
  cbn [a_neg ao1]. destruct (Rlt_dec (-1) 0) as [_|X]; [|exfalso; lra]. cbn. eexists. split; [reflexivity|]. split; reflexivity.
Qed.
Lemma solve_after s : p_cache s = Some [7%nat] -> exists s', solve ho1 (ao1 (-1)) (o0 0 0) 1 1 2 (ey1 (-1)) 1 0 (ev1 1) (ev1 5) true false s = (R_true (ev1 (-1)), s') /\
  p_ev s' = E_aug [7%nat] d0 false SUCCESS :: E_once [7%nat] false :: p_ev s.
Proof.
  intros Cs. unfold solve. cbn [solve_loop f_pretend f_last]. unfold solve_once. cbn [log p_cache p_h p_a p_impr p_ev ey1 y_id]. rewrite Cs.
  destruct (list_eq_dec Nat.eq_dec [7%nat] [7%nat]) as [_|X]; [|congruence]. cbn [andb negb].
  unfold call_aug. cbn [negb a_solve ao1 h_cur ho1 log p_a]. change (d_x d0) with 0.
  destruct (Req_EM_T (-1 + 0) 0) as [X|_]; [exfalso; lra|]. cbn [andb].
  destruct (Req_EM_T 1 0) as [X|_]; [lra|]. destruct (Req_EM_T 0 0) as [_|X]; [|lra].
  match goal with |- exists _, (R_true ?u, ?t) = _ /\ _ => assert (V : u = ev1 (-1)); [|exists t; split; [rewrite V; reflexivity|reflexivity]] end.
  unfold ivmap, ivmap2, back_subst, ey1, ev1, add_one, add_two, sinvblrm, mk, dim, el, aug_rhs, pmsinvz, vmap. cbn. f_equal. f_equal. field.
Qed.
Theorem C67_inertia_always_checked_refuted :
  ~ (forall (ho : hops unit) (ao : augops unit) o Y fuel fr fo rhs res0 s v s',
       handler_ok ho -> popts_ok o -> curv_tol o = 0 -> pd_reach ho ao o s ->
       solve ho ao o fuel fr fo Y 1 0 rhs res0 true false s = (R_true v, s') ->
       exists d, In (E_aug (y_id Y) d true SUCCESS) (p_ev s')).
Proof.
  intros F. destruct solve_fail as (s1 & E1 & E2 & E3). destruct (solve_after s1 E2) as (s2 & G1 & G2).
  assert (R0 : pd_reach ho1 (ao1 (-1)) (o0 0 0) s0) by (apply pd_start; reflexivity).
  assert (R1 : pd_reach ho1 (ao1 (-1)) (o0 0 0) s1) by (eapply pd_step; [exact R0|exact E1|discriminate]).
  destruct (F _ _ _ _ _ _ _ _ _ _ _ _ ho1_ok (o0_ok 0 0 (le_n _)) eq_refl R1 G1) as (d & Hd).
  rewrite G2, E3 in Hd. cbn in Hd. intuition discriminate.
Qed.

(** * C68: the search direction *)
Theorem C68_search_direction {H A} (ho : hops H) (ao : augops A) po P o B m e W Y q fuel fr fo mehrotra fast aff fresh s v s' :
  nlp_ok P -> opts_ok o -> dims_ok P e -> interior P o B e -> at_point P o B m e W Y q ->
  handler_ok ho -> popts_ok po -> solver_exact (n_x P) (n_s P) (n_c P) ao Y -> iv_ok (n_x P) (n_s P) (n_c P) Y fresh -> (mehrotra = true -> iv_dims P aff) ->
  search_dir ho ao po fuel fr fo Y q mehrotra fast aff None fresh s = (R_true v, s') ->
  newton_step P o B m e W (h_cur ho (p_h s')) (fun b k => if mehrotra then second_order P aff b k else 0) v.
Proof.
  intros HP Ho HD HI T HO OO SE Hf Ha E. cbn [search_dir] in E.
  pose proof (at_point_sys P o B m e W Y q HP Ho HD HI T) as K.
  pose proof (iv_is_ok _ _ _ _ _ _ (search_rhs_is P o B m e W Y q HP T mehrotra aff Ha)) as Hr.
  destruct (C64_exact_solver ho ao po (n_x P) (n_s P) (n_c P) Y fuel fr fo (-1) 0 _ fresh fast s v s' HO OO K SE Hr Hf ltac:(lra) E) as (w & _ & S1 & L & _).
  apply (solves_step P o B m e W Y q HP Ho HD HI T _ mehrotra aff w v Ha S1).
  eapply iv_is_ext; [exact L|..]; intros i _; unfold lin2; cbn [w_x w_s w_c w_d w_zL w_zU w_vL w_vU]; ring.
Qed.
(** A direction that is there already is kept when small step tolerance (fast_step_computation) is set; otherwise it is improved: *)
Theorem C68_given_direction {H A} (ho : hops H) (ao : augops A) po P o B m e W Y q fuel fr fo mehrotra fast aff dir fresh s v s' :
  nlp_ok P -> opts_ok o -> dims_ok P e -> interior P o B e -> at_point P o B m e W Y q ->
  handler_ok ho -> popts_ok po -> solver_exact (n_x P) (n_s P) (n_c P) ao Y -> iv_ok (n_x P) (n_s P) (n_c P) Y fresh -> iv_ok (n_x P) (n_s P) (n_c P) Y dir -> (mehrotra = true -> iv_dims P aff) ->
  p_cache s = Some (y_id Y) ->
  search_dir ho ao po fuel fr fo Y q mehrotra fast aff (Some dir) fresh s = (R_true v, s') ->
  (fast = true /\ v = dir /\ s' = s) \/
  (fast = false /\ newton_step P o B m e W (h_cur ho (p_h s')) (fun b k => if mehrotra then second_order P aff b k else 0) v) \/
  (fast = false /\ min_ref po = O /\ iv_is (n_x P) (n_s P) (n_c P) Y v (of_iv dir)).
Proof.
  intros HP Ho HD HI T HO OO SE Hf Hd Ha Cs E. cbn [search_dir] in E.
  destruct fast; [injection E as <- <-; left; auto|]. right.
  pose proof (at_point_sys P o B m e W Y q HP Ho HD HI T) as K.
  pose proof (iv_is_ok _ _ _ _ _ _ (search_rhs_is P o B m e W Y q HP T mehrotra aff Ha)) as Hr.
  pose proof (iv_add_one (n_x P) (n_s P) (n_c P) Y (-1) 0 dir fresh Hd Hf) as L0.
  set (res0 := ivmap2 (fun y v => add_one (-1) v 0 y) fresh dir) in *.
  assert (L1 : iv_is (n_x P) (n_s P) (n_c P) Y res0 (lin2 (-1) (of_iv dir) 0 (of_iv fresh))).
  { exact L0. }
  unfold solve in E.
  destruct (solve_loop ho ao po fuel fr fo Y false true (search_rhs Y q mehrotra aff) (Fl false false false) res0 s) as [r s1] eqn:L.
  destruct r as [w|w| |]; [|discriminate|discriminate|discriminate].
  destruct (Req_EM_T (-1) 0) as [X|_]; [lra|]. destruct (Req_EM_T 0 0) as [_|X]; [|lra]. injection E as <- <-.
  destruct (loop_exact ho ao po Y HO _ OO _ _ _ K Hr SE fr fo fuel false true (Fl false false false) res0 s s1 w (iv_is_ok _ _ _ _ _ _ L1) ltac:(auto) eq_refl eq_refl L) as ([S1|(_ & -> & Hm & _)] & _).
  - left. split; [reflexivity|]. apply (solves_step P o B m e W Y q HP Ho HD HI T _ mehrotra aff w _ Ha S1). apply iv_scal, S1.
  - right. split; [reflexivity|]. split; [exact Hm|].
    pose proof (iv_scal _ _ _ Y (-1) _ (iv_is_ok _ _ _ _ _ _ L1)) as L2.
    destruct L1 as ((_&N1)&(_&N2)&(_&N3)&(_&N4)&(_&N5)&(_&N6)&(_&N7)&(_&N8)).
    unfold lin2, of_iv in *. cbn [w_x w_s w_c w_d w_zL w_zU w_vL w_vU] in *.
    eapply iv_is_ext; [exact L2|..]; intros i Hi; cbn [w_x w_s w_c w_d w_zL w_zU w_vL w_vU];
      rewrite ?N1, ?N2, ?N3, ?N4, ?N5, ?N6, ?N7, ?N8 by exact Hi; ring.
Qed.
(** At a feasible point the barrier function decreases along the Newton step if the quadratic form is positive there. *)
Theorem C68_descent P o B m e W d v : nlp_ok P -> opts_ok o -> interior P o B e ->
  newton_step P o B m e W d (fun _ _ => 0) v ->
  (forall i, (i < n_c P)%nat -> (fn_c P (e_x e)).[i] = 0) -> (forall i, (i < n_s P)%nat -> (fn_d P (e_x e)).[i] = (e_s e).[i]) ->
  d_c d = 0 -> d_d d = 0 ->
  gbtd P o B m e (vx v) (vs v) = - quad P B e W d (vx v) (vs v) /\
  (0 < quad P B e W d (vx v) (vs v) -> gbtd P o B m e (vx v) (vs v) < 0).
Proof.
  intros HP Ho HI N Fc Fd Dc Dd. pose proof (slope P o B m e W HP Ho HI d v N Fc Fd Dc Dd) as E. split; [exact E|]. rewrite E. intros. lra.
Qed.

(** ** From IpoptCalculatedQuantities to the step: Solve and ComputeSearchDirection ask these questions at the current point
    (IpPDFullSpaceSolver.cpp:170-191, IpPDSearchDirCalc.cpp:66-109); an answer does not depend on what was asked before (C57) *)
Definition the_sys (P : nlp) (o : opts) (W : mat) (id : list nat) (s : CQModel.st) : psys :=
  PSys id W (ansN (cq_jac_c P false) s) (ansN (cq_jac_d P false) s) (pos P XL) (pos P XU) (pos P SL) (pos P SU)
    (e_zL (E s false)) (e_zU (E s false)) (e_vL (E s false)) (e_vU (E s false))
    (ansV (cq_slack P o false XL) s) (ansV (cq_slack P o false XU) s) (ansV (cq_slack P o false SL) s) (ansV (cq_slack P o false SU) s)
    (ansV (cq_sigma_x P o) s) (ansV (cq_sigma_s P o) s).
Definition the_cqv (P : nlp) (o : opts) (s : CQModel.st) : cqv :=
  Cqv (ansV (cq_grad_lag_damp_x P o) s) (ansV (cq_grad_lag_damp_s P o) s) (ansV (cq_c P false) s) (ansV (cq_d_minus_s P false) s)
    (ansV (cq_relaxed_compl P o XL) s) (ansV (cq_relaxed_compl P o XU) s) (ansV (cq_relaxed_compl P o SL) s) (ansV (cq_relaxed_compl P o SU) s).
Theorem C68_from_calculated_quantities P o fixmu B0 mu0 s W id :
  nlp_ok P -> opts_ok o -> reach P o true fixmu B0 mu0 s -> mufree P fixmu -> mr W = n_x P /\ mc W = n_x P ->
  at_point P o B0 (mu s) (E s false) W (the_sys P o W id s) (the_cqv P o s) /\ dims_ok P (E s false) /\ interior P o B0 (E s false).
Proof.
  intros HP Ho HR Hm HW. pose proof (reach_inv _ _ _ _ _ _ HP Ho _ HR) as HI.
  destruct (C57_function_values P o true fixmu B0 mu0 s HP Ho HR false) as (_ & _ & _ & F1 & _ & _ & _ & F2).
  destruct (C57_derivatives P o true fixmu B0 mu0 s HP Ho HR false) as (J1 & J2 & _).
  destruct (C58_lagrangian_gradient P o true fixmu B0 mu0 s HP Ho HR Hm false) as (_ & _ & G1 & G2).
  pose proof (fun b => proj1 (C59_slacks_and_barrier P o fixmu B0 mu0 s HP Ho HR false b)) as SL0.
  pose proof (fun b => proj1 (proj2 (C59_complementarity P o fixmu B0 mu0 s HP Ho HR false b 0 N1))) as RC.
  destruct (C59_complementarity P o fixmu B0 mu0 s HP Ho HR false XL 0 N1) as (_ & _ & _ & _ & _ & _ & X1 & X2).
  destruct (iv_env _ _ _ _ _ _ s _ false HI eq_refl) as [D0 I0].
  split; [|split; [exact D0|exact (I0 eq_refl)]].
  constructor; cbn [the_sys the_cqv y_W y_Jc y_Jd y_pxL y_pxU y_pdL y_pdU y_zL y_zU y_vL y_vU y_sxL y_sxU y_ssL y_ssU y_sigx y_sigs q_gx q_gs q_c q_dms q_zL q_zU q_vL q_vU]; auto.
  rewrite F1. apply vis_self. apply (CQSpec.ok_c _ HP).
Qed.

(** ** Examples *)
(** an exact solver for systems with one variable, one inequality constraint whose Jacobian is zero, W = 1, no perturbation *)
Definition ao2 : augops unit := AOps unit (fun a Y d b _ _ =>
    if Req_EM_T (d_x d) 0 then if Req_EM_T (d_s d) 0 then if Req_EM_T (d_d d) 0 then
      (SUCCESS, AV [(ax b).[0]] [- (ad b).[0]] [] [(y_sigs Y).[0] * - (ad b).[0] - (as_ b).[0]], a)
    else (SINGULAR, b, a) else (SINGULAR, b, a) else (SINGULAR, b, a)) (fun _ => 1%nat) (fun a => (false, a)).
Definition exW : mat := Mat 1 1 (fun _ _ => 1).
Definition exY : psys := the_sys exD exO exW [3%nat] exSD.
Definition exQ : cqv := the_cqv exD exO exSD.
Lemma exD_reach : reach exD exO true true (exB (-1)) 1 exSD.
Proof. apply reach_start. exact (exD_start true). Qed.
Lemma ex_at : at_point exD exO (exB (-1)) 1 (E exSD false) exW exY exQ /\ dims_ok exD (E exSD false) /\ interior exD exO (exB (-1)) (E exSD false).
Proof. apply (C68_from_calculated_quantities exD exO true (exB (-1)) 1 exSD exW [3%nat] exD_ok exO_ok exD_reach); [left; reflexivity|split; reflexivity]. Qed.
Lemma exY_Jd : y_Jd exY = Mat 1 1 (fun _ _ => 0).
Proof. exact (proj1 (proj2 (C57_derivatives exD exO true true _ 1 exSD exD_ok exO_ok exD_reach false))). Qed.
Lemma exY_Jc : y_Jc exY = Mat 0 1 (fun _ _ => 0).
Proof. exact (proj1 (C57_derivatives exD exO true true _ 1 exSD exD_ok exO_ok exD_reach false)). Qed.
Lemma exY_sigx : (y_sigx exY).[0] = 0.
Proof. destruct ex_at as [T _]. destruct (t_sig _ _ _ _ _ _ _ _ T) as [[_ G] _]. rewrite G by (cbn; lia). unfold sigma_x, scat. cbn. ring. Qed.
Lemma exY_exact : solver_exact 1 1 0 ao2 exY.
Proof.
  assert (W1 : y_W exY = exW) by reflexivity. pose proof exY_Jd as J1. pose proof exY_Jc as J2. pose proof exY_sigx as G1. generalize dependent exY. intros Y W1 J1 J2 G1.
  intros a d b chk n x a' E. cbn in E. destruct (Req_EM_T (d_x d) 0) as [Dx|]; [|discriminate]. destruct (Req_EM_T (d_s d) 0) as [Ds|]; [|discriminate].
  destruct (Req_EM_T (d_d d) 0) as [Dd|]; [|discriminate]. injection E as <- <-.
  unfold solves_aug, av_ok, aug_x, aug_s, aug_c, aug_d. rewrite J1, J2, W1, Dx, Ds, Dd. unfold Jv, JTv. cbn [exW mr mc ment ax as_ ac ad length].
  splits; auto; intros [|i] Hi; try lia; cbn [sumn nth]; rewrite ?G1; ring.
Qed.
Example C68_nonvacuous : exists v s', search_dir ho0 ao2 (o0 1 2) 1 2 2 exY exQ false true (ev1 0) None (IV [9] [9] [] [9] [] [] [9] []) s0 = (R_true v, s') /\
  newton_step exD exO (exB (-1)) 1 (E exSD false) exW d0 (fun _ _ => 0) v /\ (vx v).[0] = -1.
Proof.
  destruct ex_at as (T & D0 & I0).
  assert (R : exists v s', search_dir ho0 ao2 (o0 1 2) 1 2 2 exY exQ false true (ev1 0) None (IV [9] [9] [] [9] [] [] [9] []) s0 = (R_true v, s')).
  { cbn [search_dir]. unfold solve. cbn [solve_loop f_pretend f_last]. unfold solve_once. cbn [log s0 p_cache p_h p_a p_impr p_ev andb negb h_new ho0].
    generalize (aug_rhs exY (search_rhs exY exQ false (ev1 0))) as b. intros b. cbn [pert_loop].
    assert (C : curv_on (o0 1 2) = false) by (unfold curv_on; cbn; destruct (Rlt_dec 0 0); [lra|reflexivity]). rewrite C.
    unfold call_aug. cbn [negb a_solve ao2 d0 d_x d_s d_c d_d set_h p_a log p_cache p_h].
    destruct (Req_EM_T 0 0) as [_|X]; [|lra]. cbn [andb]. destruct (Req_EM_T (-1) 0) as [X|_]; [lra|]. eexists. eexists. reflexivity. }
  destruct R as (v & s' & R0). exists v, s'. split; [exact R0|].
  assert (Hf : iv_ok 1 1 0 exY (IV [9] [9] [] [9] [] [] [9] [])) by (unfold iv_ok, iv_is; cbn; splits; split; try reflexivity; intros; reflexivity).
  pose proof (C68_search_direction ho0 ao2 (o0 1 2) exD exO (exB (-1)) 1 (E exSD false) exW exY exQ 1 2 2 false true (ev1 0) _ s0 v s'
    exD_ok exO_ok D0 I0 T ho0_ok (o0_ok 1 2 ltac:(lia)) exY_exact Hf ltac:(discriminate) R0) as N.
  split; [exact N|]. destruct N as (_ & N & _). specialize (N O ltac:(cbn; lia)). unfold glag_x, dampg_x, gobj, JTv, Jv, scat in N. cbn in N. lra.
Qed.
(** the data of the other theorems *)
Example C63_nonvacuous : handler_ok ho0 /\ popts_ok (o0 1 2) /\ sys_ok 1 1 0 exY /\ solver_exact 1 1 0 ao2 exY /\ solver_dims 1 0 0 ao0 (ey1 1) /\ length (y_pdL exY) = 1%nat.
Proof.
  destruct ex_at as (T & D0 & I0). splits; try reflexivity.
  - exact ho0_ok. - apply o0_ok; lia. - exact (at_point_sys exD exO (exB (-1)) 1 (E exSD false) exW exY exQ exD_ok exO_ok D0 I0 T). - exact exY_exact. - apply ao0_dims.
Qed.
Example C65_nonvacuous : exists s', solve ho0 ao0 (o0 0 0) 2 1 2 (ey1 1) 1 0 (ev1 1) (ev1 5) false false s0 = (R_true (ev1 0), s') /\ In E_singular (p_ev s').
Proof. destruct solve_zero as (s' & E & Ev). exists s'. split; [exact E|]. rewrite Ev. cbn. tauto. Qed.
Example C67_nonvacuous : exists s', pd_reach ho0 ao0 (o0 0 0) s' /\ p_cache s' = Some [7%nat] /\ In (E_aug [7%nat] d0 true SUCCESS) (p_ev s') /\ ~ In (E_fail [7%nat]) (p_ev s').
Proof.
  destruct solve_zero as (s' & E & Ev). exists s'. split; [eapply pd_step; [apply (pd_start _ _ _ s0); reflexivity|exact E|discriminate]|].
  split.
  - unfold solve in E. destruct (solve_loop ho0 ao0 (o0 0 0) 2 1 2 (ey1 1) false false (ev1 1) (Fl false false false) (ev1 5) s0) as [q s1] eqn:L.
    destruct q as [w|w| |]; [|discriminate|discriminate|discriminate]. assert (s1 = s') by congruence. subst s1.
    exact (loop_cached ho0 ao0 (o0 0 0) (ey1 1) ho0_ok (ev1 1) (o0_ok 0 0 (le_n _)) 1 2 2 false false _ _ _ _ _ ltac:(discriminate) L).
  - rewrite Ev. split; [cbn; tauto|]. cbn. intuition discriminate.
Qed.
Print Assumptions C63_any_answer.
Print Assumptions C63_exact_answer.
Print Assumptions C63_no_other_solution.
Print Assumptions C64_residual.
Print Assumptions C64_refinement_step.
Print Assumptions C64_exact_solver.
Print Assumptions C65_accuracy.
Print Assumptions C65_accuracy_guarantee_refuted.
Print Assumptions C65_alpha_zero_refuted.
Print Assumptions C66_work.
Print Assumptions C66_terminates.
Print Assumptions C66_max_refinement_steps_refuted.
Print Assumptions C67_inertia_checked.
Print Assumptions C67_inertia_always_checked_refuted.
Print Assumptions C68_search_direction.
Print Assumptions C68_given_direction.
Print Assumptions C68_descent.
Print Assumptions C68_from_calculated_quantities.
