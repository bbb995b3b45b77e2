(** Model of the filter line search:
    - /repo/src/Algorithm/IpFilterLSAcceptor.cpp: 207-640 (without the computation of
      corrector and second-order-correction directions), 869-890
    - /repo/src/Algorithm/IpBacktrackingLineSearch.cpp: 252-907, 1103-1207, 1276-1318
    - /repo/src/Algorithm/IpRestoFilterConvCheck.cpp: 54-84
    - /repo/src/Common/IpUtils.cpp: 195-203

    Numbers are binary64; std::pow and std::log10 are arbitrary functions.
    Iterates and search directions are elements of arbitrary types; constraint
    violation, barrier function, step bounds, trial points, evaluation errors,
    the solution of linear systems and the restoration phase are given by an
    environment. Left out: dual steps and the printed information. The three
    evaluation attempts of a soft restoration step (1131-1155) use the same point,
    so that they are modelled by one. *)
From Coq Require Import List Bool ZArith.
From Verif Require Import Num FilterModel ConvModel.
Import ListNotations.
Set Implicit Arguments.
Local Open Scope Z_scope.

Definition mach_eps : num := nrat 1 (2 ^ 52).
Definition ten_eps : num := nmul (nofZ 10) mach_eps.
(** IpUtils.cpp 195-203 *)
Definition compare_le (lhs rhs basval : num) : bool := nle (nsub lhs rhs) (nmul ten_eps (nabs basval)).

(** Options (InitializeImpl 208-246) *)
Record aopts := AOpts {
  a_theta_max_fact : num; a_theta_min_fact : num; a_eta : num; a_delta : num; a_s_phi : num; a_s_theta : num;
  a_gamma_phi : num; a_gamma_theta : num; a_alpha_min_frac : num; a_max_soc : Z; a_kappa_soc : num;
  a_max_resets : Z; a_reset_trigger : Z; a_obj_max_inc : num
}.

(** State (IpFilterLSAcceptor.hpp): reference values, watchdog values, theta_min_,
    theta_max_, reset heuristic, filter *)
Record acc := Acc {
  ref_theta : num; ref_barr : num; ref_gbd : num;
  wd_theta : num; wd_barr : num; wd_gbd : num;
  theta_min : num; theta_max : num;
  last_rej : bool; succ_rej : Z; n_resets : Z;
  flt : filter
}.

Section Acceptor.
Variables (pw : num -> num -> num) (log10 : num -> num) (o : aopts).

Definition set_gbd (s : acc) (g : num) : acc :=
  Acc (ref_theta s) (ref_barr s) g (wd_theta s) (wd_barr s) (wd_gbd s) (theta_min s) (theta_max s) (last_rej s) (succ_rej s) (n_resets s) (flt s).
Definition set_ref (s : acc) (t b g : num) : acc :=
  Acc t b g (wd_theta s) (wd_barr s) (wd_gbd s) (theta_min s) (theta_max s) (last_rej s) (succ_rej s) (n_resets s) (flt s).
Definition set_wd (s : acc) (t b g : num) : acc :=
  Acc (ref_theta s) (ref_barr s) (ref_gbd s) t b g (theta_min s) (theta_max s) (last_rej s) (succ_rej s) (n_resets s) (flt s).
Definition set_thetas (s : acc) (mn mx : num) : acc :=
  Acc (ref_theta s) (ref_barr s) (ref_gbd s) (wd_theta s) (wd_barr s) (wd_gbd s) mn mx (last_rej s) (succ_rej s) (n_resets s) (flt s).
Definition set_rej (s : acc) (b : bool) (n : Z) : acc :=
  Acc (ref_theta s) (ref_barr s) (ref_gbd s) (wd_theta s) (wd_barr s) (wd_gbd s) (theta_min s) (theta_max s) b n (n_resets s) (flt s).
Definition set_flt (s : acc) (f : filter) : acc :=
  Acc (ref_theta s) (ref_barr s) (ref_gbd s) (wd_theta s) (wd_barr s) (wd_gbd s) (theta_min s) (theta_max s) (last_rej s) (succ_rej s) (n_resets s) f.

(** Reset (493-501) *)
Definition a_reset (s : acc) : acc := set_flt (set_rej s false 0) (filter_clear (flt s)).
(** InitializeImpl 240-247; the reference and watchdog values keep what they had *)
Definition a_initialize (s : acc) : acc :=
  let s := set_thetas s (nofZ (-1)) (nofZ (-1)) in
  a_reset (Acc (ref_theta s) (ref_barr s) (ref_gbd s) (wd_theta s) (wd_barr s) (wd_gbd s) (theta_min s) (theta_max s) (last_rej s) (succ_rej s) 0 (flt s)).

(** InitThisLineSearch (250-270), called with the values of the current iterate *)
Definition a_init_ls (in_watchdog : bool) (t b g : num) (s : acc) : acc :=
  if in_watchdog then set_ref s (wd_theta s) (wd_barr s) (wd_gbd s) else set_ref s t b g.

(** IsFtype (272-296); may change reference_gradBarrTDelta_ *)
Definition is_ftype (alpha : num) (s : acc) : acc * bool :=
  let s := if neqb (ref_theta s) nzero && ngt (ref_gbd s) nzero && nlt (ref_gbd s) (nmul (nofZ 100) mach_eps)
           then set_gbd s (nopp mach_eps) else s in
  (s, nlt (ref_gbd s) nzero &&
      ngt (nmul alpha (pw (nopp (ref_gbd s)) (a_s_phi o))) (nmul (a_delta o) (pw (ref_theta s) (a_s_theta o)))).

(** AugmentFilter (298-307); AddEntry never fails for entries with two coordinates *)
Definition augment (iter : Z) (s : acc) : acc :=
  let phi_add := nsub (ref_barr s) (nmul (a_gamma_phi o) (ref_theta s)) in
  let theta_add := nmul (nsub none (a_gamma_theta o)) (ref_theta s) in
  set_flt s (match filter_add2 (flt s) phi_add theta_add iter with Some f => f | None => flt s end).

(** ArmijoHolds (424-434) *)
Definition armijo (alpha trial_barr : num) (s : acc) : bool :=
  compare_le (nsub trial_barr (ref_barr s)) (nmul (nmul (a_eta o) alpha) (ref_gbd s)) (ref_barr s).

(** IsAcceptableToCurrentIterate (456-487) *)
Definition acceptable_to_iterate (resto : bool) (trial_barr trial_theta : num) (s : acc) : bool :=
  let too_fast :=
    negb resto && ngt trial_barr (ref_barr s) &&
    (let basval := if ngt (nabs (ref_barr s)) (nofZ 10) then log10 (nabs (ref_barr s)) else none in
     ngt (log10 (nsub trial_barr (ref_barr s))) (nadd (a_obj_max_inc o) basval)) in
  if too_fast then false
  else compare_le trial_theta (nmul (nsub none (a_gamma_theta o)) (ref_theta s)) (ref_theta s)
       || compare_le (nsub trial_barr (ref_barr s)) (nmul (nopp (a_gamma_phi o)) (ref_theta s)) (ref_barr s).

(** IsAcceptableToCurrentFilter (489-492) *)
Definition acceptable_to_filter (trial_barr trial_theta : num) (s : acc) : bool :=
  match filter_acceptable2 (flt s) trial_barr trial_theta with Some b => b | None => false end.

(** CheckAcceptabilityOfTrialPoint (309-422). [th], [ba]: the values at the trial
    point, None if the evaluation throws Eval_Error. The answer is None if the
    exception leaves the function, else accept and whether the reset heuristic
    has cleared the filter. *)
Definition a_check (alpha : num) (th ba : option num) (s : acc) : acc * option (bool * bool) :=
  match th with
  | None => (s, None)
  | Some trial_theta =>
    let tmx := if nlt (theta_max s) nzero then nmul (a_theta_max_fact o) (nmax none (ref_theta s)) else theta_max s in
    let tmn := if nlt (theta_min s) nzero then nmul (a_theta_min_fact o) (nmax none (ref_theta s)) else theta_min s in
    let s := set_thetas s tmn tmx in
    if ngt (theta_max s) nzero && ngt trial_theta (theta_max s) then (s, Some (false, false))
    else match ba with
    | None => (s, None)
    | Some trial_barr =>
      let '(s, ft) := if ngt alpha nzero then is_ftype alpha s else (s, false) in
      let accept := if ft && nle (ref_theta s) (theta_min s) then armijo alpha trial_barr s
                    else acceptable_to_iterate false trial_barr trial_theta s in
      if negb accept then (set_rej s false (succ_rej s), Some (false, false))
      else if negb (acceptable_to_filter trial_barr trial_theta s) then (set_rej s true (succ_rej s), Some (false, false))
      else
        let '(s, fired) :=
          if (0 <? a_max_resets o) then
            if n_resets s <? a_max_resets o then
              if last_rej s then
                let s := set_rej s (last_rej s) (succ_rej s + 1) in
                if a_reset_trigger o <=? succ_rej s then (a_reset s, true) else (s, false)
              else (set_rej s (last_rej s) 0, false)
            else (s, false)
          else (s, false) in
        (set_rej s false (succ_rej s), Some (true, fired))
    end
  end.

(** CalculateAlphaMin (436-454); [g], [t] are those of the current iterate *)
Definition alpha_min (g t : num) (s : acc) : num :=
  let am := a_gamma_theta o in
  let am := if nlt g nzero then
      let am := nmin (a_gamma_theta o) (ndiv (nmul (a_gamma_phi o) t) (nopp g)) in
      if nle t (theta_min s) then
        nmin am (ndiv (nmul (a_delta o) (pw t (a_s_theta o))) (pw (nopp g) (a_s_phi o)))
      else am
    else am in
  nmul (a_alpha_min_frac o) am.

(** StartWatchDog (493..), StopWatchDog *)
Definition a_start_wd (t b g : num) (s : acc) : acc := set_wd s t b g.
Definition a_stop_wd (s : acc) : acc := set_ref s (wd_theta s) (wd_barr s) (wd_gbd s).

(** UpdateForNextIteration (869-884): the answer true is 'h' (filter augmented) *)
Definition a_update (iter : Z) (alpha trial_barr : num) (s : acc) : acc * bool :=
  let '(s, ft) := is_ftype alpha s in
  if negb ft || negb (armijo alpha trial_barr s) then (augment iter s, true) else (s, false).

(** RestoFilterConvergenceCheck::TestOrigProgress (IpRestoFilterConvCheck.cpp 54-84):
    true = CONVERGED *)
Definition orig_progress (trial_barr trial_theta : num) (s : acc) : bool :=
  if negb (acceptable_to_filter trial_barr trial_theta s) then false
  else acceptable_to_iterate true trial_barr trial_theta s.

(** ** Histories of the acceptor *)
Inductive aop :=
| AInit                                          (* Initialize *)
| AReset                                         (* Reset *)
| AInitLS (wd : bool) (t b g : num)
| ACheck (alpha : num) (th ba : option num)
| AStartWD (t b g : num) | AStopWD
| AUpdate (iter : Z) (alpha ba : num)            (* UpdateForNextIteration *)
| APrepareResto (iter : Z).                      (* PrepareRestoPhaseStart 886-890 *)
Inductive aout := OUnit | OCheck (r : option (bool * bool)) | OUpdate (h : bool).
Definition a_step (s : acc) (c : aop) : acc * aout :=
  match c with
  | AInit => (a_initialize s, OUnit)
  | AReset => (a_reset s, OUnit)
  | AInitLS wd t b g => (a_init_ls wd t b g s, OUnit)
  | ACheck al th ba => let '(s, r) := a_check al th ba s in (s, OCheck r)
  | AStartWD t b g => (a_start_wd t b g s, OUnit)
  | AStopWD => (a_stop_wd s, OUnit)
  | AUpdate it al ba => let '(s, h) := a_update it al ba s in (s, OUpdate h)
  | APrepareResto it => (augment it s, OUnit)
  end.
End Acceptor.

(** ** BacktrackingLineSearch *)
(** Options (InitializeImpl 191-224) *)
Record bopts := BOpts {
  b_red : num; b_every : bool; b_after : Z; b_wd_max : Z; b_wd_trigger : Z;
  b_soft_factor : num; b_soft_max : Z; b_infeas_ctol : num; b_tiny_y_tol : num
}.

Section Backtrack.
Variables (pw : num -> num -> num) (log10 : num -> num) (ao : aopts) (bo : bopts).
(** iterates and directions *)
Variables (I D : Type).

(** what the second order correction with number [k] gives: 536-590 *)
Inductive socres := SocFail | SocTrial (alpha : num) (p : I) (d : D).
(** the restoration phase: a new trial point, failure, or an exception *)
Inductive restores := RestoPoint (p : I) | RestoFail | RestoThrow (e : exn).

(** The environment of one call of FindAcceptableTrialPoint. *)
Record env := Env {
  e_mu : num; e_iter : Z;
  e_delta : D;                              (* IpData().delta() *)
  e_ctheta : I -> num; e_cbarr : I -> num;  (* curr_constraint_violation, curr_barrier_obj *)
  e_gbd : I -> D -> num;                    (* gradBarrTDelta *)
  e_alpha_max : I -> D -> num;              (* primal fraction to the boundary *)
  e_trial : I -> D -> num -> I;             (* the trial point for a step size *)
  e_theta : I -> option num; e_barr : I -> option num;   (* at a trial point *)
  e_corr : I -> D -> option (num * I * D);  (* corrector step that may be tried (TryCorrector) *)
  e_soc : I -> D -> num -> nat -> socres;
  e_soft_alpha : I -> D -> num;             (* Min of primal and dual fraction to the boundary *)
  e_pd_trial : I -> option num; e_pd_curr : I -> option num;
  e_tiny : I -> D -> bool;                  (* DetectTinyStep *)
  e_dynorm : num;                           (* Max of the y-steps' Amax *)
  e_acceptable : I -> bool;                 (* CurrentIsAcceptable *)
  e_square : bool; e_ylarge : bool;
  e_has_resto : bool;                       (* IsValid(resto_phase_) *)
  e_almost_feasible : I -> bool;            (* 575-576 *)
  e_resto : I -> restores
}.

(** State (IpBacktrackingLineSearch.hpp) and IpData().curr() *)
Record bls := Bls {
  curr : I;
  in_wd : bool; wd_iterate : option I; wd_delta : option D; wd_trial_iter : Z; wd_short : Z; wd_alpha_test : num;
  in_soft : bool; soft_counter : Z;
  rigorous : bool; skipped : bool; tiny_last : bool; fallback : bool;
  acc_iterate : option I; acc_iter : Z;
  last_mu : num; succ_short : Z;
  expect_inf : bool; inf_ctol : num; start_resto : bool;
  lsa : acc
}.
Definition with_acc (s : bls) (a : acc) : bls :=
  Bls (curr s) (in_wd s) (wd_iterate s) (wd_delta s) (wd_trial_iter s) (wd_short s) (wd_alpha_test s) (in_soft s) (soft_counter s)
      (rigorous s) (skipped s) (tiny_last s) (fallback s) (acc_iterate s) (acc_iter s) (last_mu s) (succ_short s) (expect_inf s) (inf_ctol s) (start_resto s) a.
Definition with_curr (s : bls) (p : I) : bls :=
  Bls p (in_wd s) (wd_iterate s) (wd_delta s) (wd_trial_iter s) (wd_short s) (wd_alpha_test s) (in_soft s) (soft_counter s)
      (rigorous s) (skipped s) (tiny_last s) (fallback s) (acc_iterate s) (acc_iter s) (last_mu s) (succ_short s) (expect_inf s) (inf_ctol s) (start_resto s) (lsa s).
Definition with_wd (s : bls) (w : bool) (it : option I) (d : option D) (n sh : Z) (al : num) : bls :=
  Bls (curr s) w it d n sh al (in_soft s) (soft_counter s)
      (rigorous s) (skipped s) (tiny_last s) (fallback s) (acc_iterate s) (acc_iter s) (last_mu s) (succ_short s) (expect_inf s) (inf_ctol s) (start_resto s) (lsa s).
Definition with_soft (s : bls) (b : bool) (n : Z) : bls :=
  Bls (curr s) (in_wd s) (wd_iterate s) (wd_delta s) (wd_trial_iter s) (wd_short s) (wd_alpha_test s) b n
      (rigorous s) (skipped s) (tiny_last s) (fallback s) (acc_iterate s) (acc_iter s) (last_mu s) (succ_short s) (expect_inf s) (inf_ctol s) (start_resto s) (lsa s).
Definition with_flags (s : bls) (skip tiny fall start : bool) : bls :=
  Bls (curr s) (in_wd s) (wd_iterate s) (wd_delta s) (wd_trial_iter s) (wd_short s) (wd_alpha_test s) (in_soft s) (soft_counter s)
      (rigorous s) skip tiny fall (acc_iterate s) (acc_iter s) (last_mu s) (succ_short s) (expect_inf s) (inf_ctol s) start (lsa s).
Definition with_accpoint (s : bls) (p : option I) (n : Z) : bls :=
  Bls (curr s) (in_wd s) (wd_iterate s) (wd_delta s) (wd_trial_iter s) (wd_short s) (wd_alpha_test s) (in_soft s) (soft_counter s)
      (rigorous s) (skipped s) (tiny_last s) (fallback s) p n (last_mu s) (succ_short s) (expect_inf s) (inf_ctol s) (start_resto s) (lsa s).
Definition with_mu (s : bls) (m : num) : bls :=
  Bls (curr s) (in_wd s) (wd_iterate s) (wd_delta s) (wd_trial_iter s) (wd_short s) (wd_alpha_test s) (in_soft s) (soft_counter s)
      (rigorous s) (skipped s) (tiny_last s) (fallback s) (acc_iterate s) (acc_iter s) m (succ_short s) (expect_inf s) (inf_ctol s) (start_resto s) (lsa s).
Definition with_short (s : bls) (c w : Z) : bls :=
  Bls (curr s) (in_wd s) (wd_iterate s) (wd_delta s) (wd_trial_iter s) w (wd_alpha_test s) (in_soft s) (soft_counter s)
      (rigorous s) (skipped s) (tiny_last s) (fallback s) (acc_iterate s) (acc_iter s) (last_mu s) c (expect_inf s) (inf_ctol s) (start_resto s) (lsa s).
Definition with_inf (s : bls) (b : bool) (c : num) : bls :=
  Bls (curr s) (in_wd s) (wd_iterate s) (wd_delta s) (wd_trial_iter s) (wd_short s) (wd_alpha_test s) (in_soft s) (soft_counter s)
      (rigorous s) (skipped s) (tiny_last s) (fallback s) (acc_iterate s) (acc_iter s) (last_mu s) (succ_short s) b c (start_resto s) (lsa s).

(** Reset (900-907) *)
Definition b_reset (s : bls) : bls := with_acc (with_soft s false 0) (a_reset (lsa s)).

(** StopWatchDog (861-888), in state [s] with a running watchdog: curr becomes the
    stored iterate, the answer is the stored direction. *)
Definition stop_wd (s : bls) : bls :=
  let p := match wd_iterate s with Some p => p | None => curr s end in
  let s := with_curr s p in
  let s := with_wd s false None None (wd_trial_iter s) 0 (wd_alpha_test s) in
  with_acc s (a_stop_wd (lsa s)).
Definition stored_delta (s : bls) (d : D) : D := match wd_delta s with Some d => d | None => d end.
(** StartWatchDog (845-859) *)
Definition start_wd (e : env) (s : bls) : bls :=
  let p := curr s in
  let s := with_wd s true (Some p) (Some (e_delta e)) 0 (wd_short s) (e_alpha_max e p (e_delta e)) in
  with_acc s (a_start_wd (e_ctheta e p) (e_cbarr e p) (e_gbd e p (e_delta e)) (lsa s)).

Notation check := (a_check pw log10 ao).

(** TrySecondOrderCorrection (503-608). [p], [d]: current iterate and direction,
    [al]: alpha_primal_test, [th]: theta at the trial point. The answer: the
    accepted step size, point and direction, if any. *)
Fixpoint soc_loop (e : env) (p : I) (d : D) (al : num) (fuel : nat) (k : nat) (th thold : num) (a : acc) : acc * option (num * I * D) :=
  match fuel with
  | O => (a, None)
  | S fuel =>
    if Nat.eqb k 0 || nle th (nmul (a_kappa_soc ao) thold) then
      match e_soc e p d al k with
      | SocFail => (a, None)
      | SocTrial al' p' d' =>
        match check al (e_theta e p') (e_barr e p') a with
        | (a, None) => (a, None)                       (* evaluation error: break *)
        | (a, Some (true, _)) => (a, Some (al', p', d'))
        | (a, Some (false, _)) =>
            soc_loop e p d al fuel (S k) (match e_theta e p' with Some t => t | None => th end) th a
        end
      end
    else (a, None)
  end.
(** at most max_soc_ passes *)
Definition try_soc (e : env) (p : I) (d : D) (al th : num) (a : acc) : acc * option (num * I * D) :=
  soc_loop e p d al (Z.to_nat (a_max_soc ao)) 0 th nzero a.

(** Result of DoBacktrackingLineSearch: the accepted trial point or the last one
    tried. [rejected_alpha] is alpha_primal at the end. *)
Record bres := BRes { r_accept : bool; r_point : I; r_alpha : num; r_test : num; r_steps : Z; r_delta : D; r_err : bool; r_forced : bool }.

(** the loop 730-812. [None]: not finished with this fuel *)
Fixpoint bt_loop (e : env) (amax amin : num) (d : D) (fuel : nat) (alpha test : num) (n : Z) (err : bool) (last : I) (s : bls) {struct fuel} : option (bls * bres) :=
  match fuel with
  | O => None
  | S fuel =>
    if negb (ngt alpha amin || (n =? 0)) then Some (s, BRes false last alpha test n d err false)
    else
      let p := e_trial e (curr s) d alpha in
      let test := alpha in
      let '(s, accept, err, forced) :=
        if b_every bo || (negb (b_after bo =? -1) && (b_after bo <=? n)) then
          match e_barr e p, e_theta e p with
          | Some _, Some _ => (b_reset s, true, err, true)
          | _, _ => (s, false, true, false)
          end
        else match check test (e_theta e p) (e_barr e p) (lsa s) with
             | (a, None) => (with_acc s a, false, true, false)
             | (a, Some (b, _)) => (with_acc s a, b, err, false)
             end in
      if accept then Some (s, BRes true p alpha test n d err forced)
      else if in_wd s then Some (s, BRes false p alpha test n d err false)
      else if expect_inf s && (5 <=? succ_short s) then Some (s, BRes false p alpha test n d err false)
      else
        let '(s, soc) :=
          if negb err then
            match e_theta e p with
            | Some tth =>
              if neqb alpha amax && nle (e_ctheta e (curr s)) tth then
                let '(a, r) := try_soc e (curr s) d test tth (lsa s) in (with_acc s a, r)
              else (s, None)
            | None => (s, None)
            end
          else (s, None) in
        match soc with
        | Some (al', p', d') => Some (s, BRes true p' al' test n d' err false)
        | None => bt_loop e amax amin d fuel (nmul alpha (b_red bo)) test (n + 1) err p s
        end
  end.

(** DoBacktrackingLineSearch (669-843) *)
Definition do_bt (e : env) (fuel : nat) (skip_first : bool) (d : D) (n : Z) (s : bls) : option (bls * bres) :=
  let amax := e_alpha_max e (curr s) d in
  let amin := if in_wd s then amax
              else alpha_min pw ao (e_gbd e (curr s) (e_delta e)) (e_ctheta e (curr s)) (lsa s) in
  let alpha := if skip_first then nmul amax (b_red bo) else amax in
  let test := if in_wd s then wd_alpha_test s else amax in
  let '(s, corr) :=
    if skip_first then (s, None)
    else match e_corr e (curr s) d with
         | None => (s, None)
         | Some (al', p', d') =>
           match check test (e_theta e p') (e_barr e p') (lsa s) with
           | (a, Some (true, _)) => (with_acc s a, Some (al', p', d'))
           | (a, _) => (with_acc s a, None)
           end
         end in
  match (match corr with
         | Some (al', p', d') => Some (s, BRes true p' al' test n d' false false)
         | None => bt_loop e amax amin d fuel alpha test n false (curr s) s
         end) with
  | None => None
  | Some (s, r) =>
    Some (if r_accept r then
            with_acc s (fst (a_update pw ao (e_iter e) (r_test r) (match e_barr e (r_point r) with Some b => b | None => nzero end) (lsa s)))
          else s, r)
  end.

(** TrySoftRestoStep (1103-1207): [None] = not accepted, [Some (p, b)]: b =
    satisfies_original_criterion *)
Definition try_soft (e : env) (d : D) (s : bls) : bls * option (I * bool) :=
  if neqb (b_soft_factor bo) nzero then (s, None)
  else
    let p := e_trial e (curr s) d (e_soft_alpha e (curr s) d) in
    match e_barr e p, e_theta e p with
    | Some _, Some _ =>
      match check nzero (e_theta e p) (e_barr e p) (lsa s) with
      | (a, Some (true, _)) => (with_acc s a, Some (p, true))
      | (a, _) =>
        let s := with_acc s a in
        match e_pd_trial e p, e_pd_curr e (curr s) with
        | Some pt, Some pc => if nle pt (nmul (b_soft_factor bo) pc) then (s, Some (p, false)) else (s, None)
        | _, _ => (s, None)
        end
      end
    | _, _ => (s, None)
    end.

(** How the trial point was found, as shown in the iteration output: alpha_primal
    character and "MaxS". *)
Inductive how := ByTiny | ByWatchdog | ByRule (alpha : num) | ByForce | BySoft (original : bool) | ByResto.
Inductive lsres := LSTrial (p : I) (h : how) | LSSkipped | LSThrow (x : exn) | LSLoop.

(** the while loop 437-480 over DoBacktrackingLineSearch *)
Fixpoint ls_loop (e : env) (fuel : nat) (rounds : nat) (skip : bool) (d : D) (n : Z) (s : bls) : option (bls * bres * bool) :=
  match rounds with
  | O => None
  | S rounds =>
    match do_bt e fuel skip d n s with
    | None => None
    | Some (s, r) =>
      if in_wd s then
        if r_accept r then Some (with_wd s false (wd_iterate s) (wd_delta s) (wd_trial_iter s) (wd_short s) (wd_alpha_test s), r, false)
        else
          let s := with_wd s true (wd_iterate s) (wd_delta s) (wd_trial_iter s + 1) (wd_short s) (wd_alpha_test s) in
          if r_err r || (b_wd_max bo <? wd_trial_iter s) then
            ls_loop e fuel rounds true (stored_delta s d) (r_steps r) (stop_wd s)
          else Some (s, r, true)         (* accepted although the test failed *)
      else Some (s, r, false)
    end
  end.

(** RestoreAcceptablePoint (1285-1300) *)
Definition restore_acc (s : bls) : bls * bool :=
  match acc_iterate s with Some p => (with_curr s p, true) | None => (s, false) end.

(** FindAcceptableTrialPoint (252-667), in pieces.
    260-298: watchdog dropped when mu has changed, acceptable iterate stored *)
Definition ft_entry (e : env) (s : bls) : bls :=
  let s := if negb (neqb (last_mu s) (e_mu e)) then with_mu (with_wd s false None None (wd_trial_iter s) 0 (wd_alpha_test s)) (e_mu e) else s in
  let s := if e_square e then with_inf s (expect_inf s) nzero else s in
  let s := if e_acceptable e (curr s) then with_accpoint s (Some (curr s)) (e_iter e) else s in
  with_flags s false (tiny_last s) (fallback s) (start_resto s).
(** 300-349: emergency mode, reference values, reasons to go to restoration at once *)
Definition ft_goto (e : env) (s : bls) : bls * bool :=
  let goto1 := fallback s in
  let s := if fallback s then with_flags s (skipped s) (tiny_last s) false (start_resto s)
           else with_acc s (a_init_ls (in_wd s) (e_ctheta e (curr s)) (e_cbarr e (curr s)) (e_gbd e (curr s) (e_delta e)) (lsa s)) in
  let goto2 := goto1 || start_resto s in
  let s := with_flags s (skipped s) (tiny_last s) (fallback s) false in
  (s, goto2 || (expect_inf s && e_has_resto e && e_ylarge e)).
(** 356-375: tiny steps, watchdog stopped or started. The answer: state, goto_resto,
    tiny_step, actual_delta *)
Definition ft_watch (e : env) (goto3 : bool) (s : bls) : bls * bool * bool * D :=
  let tiny1 := negb goto3 && e_tiny e (curr s) (e_delta e) in
  let stopped := in_wd s && (goto3 || tiny1) in
  let d := if stopped then stored_delta s (e_delta e) else e_delta e in
  let s := if stopped then stop_wd s else s in
  let goto := goto3 && negb stopped in
  let tiny2 := tiny1 && negb stopped in
  let s := if (0 <? b_wd_trigger bo) && negb (in_wd s) && negb goto && negb tiny2 && negb (in_soft s) && negb (expect_inf s) && (b_wd_trigger bo <=? wd_short s)
           then start_wd e s else s in
  (s, goto, tiny2, d).
(** 437-533: soft restoration phase or line search; the answer: state, accepted
    trial point, number of steps, direction. [tiny]: the tiny step could be evaluated *)
Definition ft_body (e : env) (fuel : nat) (goto tiny : bool) (ptiny : I) (d : D) (s : bls) : option (bls * option (I * how) * Z * D) :=
  if tiny then Some (s, Some (ptiny, ByTiny), 0, d)
  else if goto then Some (s, None, 0, d)
  else if in_soft s then
    let s := with_soft s (in_soft s) (soft_counter s + 1) in
    if b_soft_max bo <? soft_counter s then Some (s, None, 0, d)
    else match try_soft e d s with
         | (s, Some (p, true)) => Some (with_soft s false 0, Some (p, BySoft true), 0, d)
         | (s, Some (p, false)) => Some (s, Some (p, BySoft false), 0, d)
         | (s, None) => Some (s, None, 0, d)
         end
  else
    match ls_loop e fuel 2 false d 0 s with
    | None => None
    | Some (s, r, wd) =>
      if wd then Some (s, Some (r_point r, ByWatchdog), r_steps r, r_delta r)
      else if r_accept r then Some (s, Some (r_point r, if r_forced r then ByForce else ByRule (r_test r)), r_steps r, r_delta r)
      else Some (s, None, r_steps r, r_delta r)
    end.
(** 623-666: a trial point has been found *)
Definition ft_done (e : env) (tiny : bool) (n : Z) (s : bls) : bls :=
  if negb (in_soft s) || tiny then
    let s := if n =? 0 then with_short s 0 0 else with_short s (succ_short s + 1) (wd_short s + 1) in
    if expect_inf s && nle (e_ctheta e (curr s)) (inf_ctol s) then with_inf s false (inf_ctol s) else s
  else s.
(** 571-621: restoration phase *)
Definition ft_resto (e : env) (s : bls) : bls * lsres :=
  let s := if negb (in_soft s) then with_acc s (augment ao (e_iter e) (lsa s)) else s in
  if e_acceptable e (curr s) then (s, LSThrow EX_ACCEPTABLE_POINT_REACHED)
  else if negb (e_has_resto e) then (s, LSThrow EX_OTHER)
  else if e_almost_feasible e (curr s) then
    let '(s, found) := restore_acc s in
    (s, LSThrow (if found then EX_ACCEPTABLE_POINT_REACHED else EX_STEP_COMPUTATION_FAILED))
  else match e_resto e (curr s) with
       | RestoThrow x => (s, LSThrow x)
       | RestoFail =>
         let '(s, found) := restore_acc s in
         (s, LSThrow (if found then EX_ACCEPTABLE_POINT_REACHED else EX_RESTO_FAILED))
       | RestoPoint p => (with_soft (with_inf (with_short s 0 0) false (inf_ctol s)) false 0, LSTrial p ByResto)
       end.
(** 535-621: no trial point has been found *)
Definition ft_fail (e : env) (goto : bool) (d : D) (s : bls) : bls * lsres :=
  if negb (rigorous s) then (with_flags s true (tiny_last s) (fallback s) (start_resto s), LSSkipped)
  else if negb (in_soft s) && negb goto && negb (expect_inf s) then
    let s := with_acc s (augment ao (e_iter e) (lsa s)) in
    match try_soft e d s with
    | (s, Some (p, true)) => (s, LSTrial p (BySoft true))
    | (s, Some (p, false)) => (with_soft s true (soft_counter s), LSTrial p (BySoft false))
    | (s, None) => ft_resto e s
    end
  else ft_resto e s.
Definition find_trial (e : env) (fuel : nat) (s : bls) : bls * lsres :=
  let s := ft_entry e s in
  if fallback s && negb (e_has_resto e) then (s, LSThrow EX_STEP_COMPUTATION_FAILED)
  else
    let '(s, goto3) := ft_goto e s in
    let '(s, goto, tiny2, d) := ft_watch e goto3 s in
    (* 377-430 *)
    let ptiny := e_trial e (curr s) (e_delta e) (e_alpha_max e (curr s) (e_delta e)) in
    let tiny := tiny2 && match e_barr e ptiny, e_theta e ptiny with Some _, Some _ => true | _, _ => false end in
    let s := with_flags s (skipped s) (if tiny2 then nlt (e_dynorm e) (b_tiny_y_tol bo) else false) (fallback s) (start_resto s) in
    match ft_body e fuel goto tiny ptiny d s with
    | None => (s, LSLoop)
    | Some (s, Some (p, h), n, _) => (ft_done e tiny n s, LSTrial p h)
    | Some (s, None, n, d) => ft_fail e goto d s
    end.

(** ** Iterations: calls of FindAcceptableTrialPoint followed by the acceptance of
    the trial point (IpoptAlgorithm::AcceptTrialPoint), with resets, changes of
    the rigorous flag and fallback requests in between. *)
Inductive bop := BFind (e : env) (fuel : nat) | BReset | BRigorous (b : bool) | BFallback.
Definition b_step (s : bls) (c : bop) : bls * option lsres :=
  match c with
  | BFind e fuel =>
    let '(s, r) := find_trial e fuel s in
    (match r with LSTrial p _ => with_curr s p | _ => s end, Some r)
  | BReset => (b_reset s, None)
  | BRigorous b => (Bls (curr s) (in_wd s) (wd_iterate s) (wd_delta s) (wd_trial_iter s) (wd_short s) (wd_alpha_test s) (in_soft s) (soft_counter s)
      b (skipped s) (tiny_last s) (fallback s) (acc_iterate s) (acc_iter s) (last_mu s) (succ_short s) (expect_inf s) (inf_ctol s) (start_resto s) (lsa s), None)
  | BFallback => (Bls (curr s) (in_wd s) (wd_iterate s) (wd_delta s) (wd_trial_iter s) (wd_short s) (wd_alpha_test s) (in_soft s) (soft_counter s)
      true (skipped s) (tiny_last s) true (acc_iterate s) (acc_iter s) (last_mu s) (succ_short s) (expect_inf s) (inf_ctol s) (start_resto s) (lsa s), None)
  end.
(** the state after InitializeImpl (191-250); the acceptor is initialised too. The
    watchdog fields and counters are not set there: line 260-271 sets them in the
    first call because last_mu_ = -1. *)
Definition b_initial (p : I) (start inf : bool) (a : acc) : bls :=
  Bls p false None None 0 0 nzero false 0 true false false false None (-1) (nofZ (-1)) 0 inf (b_infeas_ctol bo) start (a_initialize a).
End Backtrack.
Arguments SocFail {I D}.
Arguments SocTrial {I D}.
Arguments RestoPoint {I}.
Arguments RestoFail {I}.
Arguments RestoThrow {I}.
Arguments LSTrial {I}.
Arguments LSSkipped {I}.
Arguments LSThrow {I}.
Arguments LSLoop {I}.
Arguments BReset {I D}.
Arguments BRigorous {I D}.
Arguments BFallback {I D}.
