(** Model of the termination logic: the convergence check, the main loop and
    the restoration phase.
    - /repo/src/Algorithm/IpOptErrorConvCheck.cpp:141-351
    - /repo/src/Algorithm/IpRestoConvCheck.cpp:54-234
    - /repo/src/Algorithm/IpIpoptAlg.cpp:292-563
    - /repo/src/Algorithm/IpRestoMinC_1Nrm.cpp:109-436
    - /repo/src/Algorithm/IpBacktrackingLineSearch.cpp:600-613

    The numerical content (error measures, what the line search does, clocks,
    the user's callback) is an environment: every convergence check and every
    pass through the main loop receives one record of answers, and the theorems
    quantify over all of them. Timing statistics, output and the stop of the
    watchdog after the loop are left out. *)
From Coq Require Import List Bool ZArith.
From Verif Require Import Num.
Import ListNotations.
Set Implicit Arguments.

(** ConvergenceStatus (IpConvCheck.hpp) *)
Inductive cstatus := CONTINUE | CONVERGED | CONVERGED_ACCEPTABLE | C_MAXITER | C_CPUTIME | C_WALLTIME | DIVERGING | USER_STOP.

(** SolverReturn (IpAlgTypes.hpp:19-39) *)
Inductive sreturn :=
  | SUCCESS | MAXITER_EXCEEDED | CPUTIME_EXCEEDED | WALLTIME_EXCEEDED | STOP_AT_TINY_STEP
  | STOP_AT_ACCEPTABLE_POINT | LOCAL_INFEASIBILITY | USER_REQUESTED_STOP | FEASIBLE_POINT_FOUND
  | DIVERGING_ITERATES | RESTORATION_FAILURE | ERROR_IN_STEP_COMPUTATION | INVALID_NUMBER_DETECTED
  | TOO_FEW_DEGREES_OF_FREEDOM | INVALID_OPTION | OUT_OF_MEMORY | INTERNAL_ERROR | UNASSIGNED.

(** Exceptions. [EX_OTHER] stands for all those that Optimize does not catch. *)
Inductive exn :=
  | EX_TINY_STEP | EX_ACCEPTABLE_POINT_REACHED | EX_LOCALLY_INFEASIBLE | EX_RESTO_FEASIBLE
  | EX_RESTO_FAILED | EX_RESTO_MAXITER | EX_RESTO_CPUTIME | EX_RESTO_WALLTIME | EX_RESTO_USER_STOP
  | EX_STEP_COMPUTATION_FAILED | EX_EVAL_ERROR | EX_FEASIBILITY_PROBLEM_SOLVED | EX_TOO_FEW_DOF
  | EX_INTERNAL_ABORT | EX_OTHER.

(** Options (IpOptErrorConvCheck.cpp:146-159); [o_tol] is IpData().tol(). *)
Record copts := COpts {
  o_max_iter : Z; o_max_wall : num; o_max_cpu : num;
  o_tol : num; o_dual_tol : num; o_constr_tol : num; o_compl_tol : num;
  o_acc_iter : Z; o_acc_tol : num; o_acc_dual : num; o_acc_constr : num; o_acc_compl : num;
  o_acc_obj : num; o_diverging : num
}.

(** What one convergence check sees. [m_cpu], [m_wall]: elapsed times. *)
Record measures := Measures {
  m_user_ok : bool;      (* IntermediateCallBack's answer *)
  m_overall : num;       (* curr_nlp_error *)
  m_dual : num; m_constr : num; m_compl : num;   (* unscaled, max norm *)
  m_f : num;             (* curr_f *)
  m_amax : num;          (* curr x Amax *)
  m_novars : bool;       (* curr x Dim == 0 *)
  m_cpu : num; m_wall : num
}.

(** State (hpp:84-100): acceptable_counter_, curr_obj_val_, last_obj_val_,
    last_obj_val_iter_ *)
Record cstate := CState { acc_counter : Z; curr_obj : num; last_obj : num; last_iter : Z }.

Definition m1e50 : num := nopp (nofZ (10 ^ 50)).
Definition c1e20 : num := nofZ (10 ^ 20).

(** InitializeImpl (162-164); last_obj_val_ is not set there, its value is
    overwritten before it is used because last_obj_val_iter_ = -1. *)
Definition init_cstate : cstate := CState 0 m1e50 nzero (-1).

(** CurrentIsAcceptable (285-351) *)
Definition update_obj (iter : Z) (e : measures) (s : cstate) : cstate :=
  if Z.eqb iter (last_iter s) then s
  else CState (acc_counter s) (m_f e) (curr_obj s) iter.
Definition is_acceptable (o : copts) (e : measures) (s : cstate) : bool :=
  nle (m_overall e) (o_acc_tol o) && nle (m_dual e) (o_acc_dual o)
  && nle (m_constr e) (o_acc_constr o) && nle (m_compl e) (o_acc_compl o)
  && nle (ndiv (nabs (nsub (curr_obj s) (last_obj s))) (nmax none (nabs (curr_obj s)))) (o_acc_obj o).

Definition set_counter (s : cstate) (n : Z) : cstate := CState n (curr_obj s) (last_obj s) (last_iter s).

Inductive cresult := CStat (s : cstatus) | CThrow (e : exn).

(** CheckConvergence (169-283) *)
Definition check_convergence (o : copts) (tol : num) (callback : bool) (iter : Z) (e : measures) (s : cstate)
  : cresult * cstate :=
  if callback && negb (m_user_ok e) then (CStat USER_STOP, s)
  else if nle (m_overall e) tol && nle (m_dual e) (o_dual_tol o) && nle (m_constr e) (o_constr_tol o)
          && nle (m_compl e) (o_compl_tol o)
  then (CStat CONVERGED, s)
  else if m_novars e then
    (if nle (m_constr e) (o_constr_tol o) then (CStat CONVERGED, s) else (CThrow EX_LOCALLY_INFEASIBLE, s))
  else
    let '(acc, s1) :=
      if (0 <? o_acc_iter o)%Z
      then let s' := update_obj iter e s in (is_acceptable o e s', s')
      else (false, s) in
    let s2 := set_counter s1 (if acc then acc_counter s1 + 1 else 0) in
    if acc && (o_acc_iter o <=? acc_counter s2)%Z then (CStat CONVERGED_ACCEPTABLE, s2)
    else if ngt (m_amax e) (o_diverging o) then (CStat DIVERGING, s2)
    else if (o_max_iter o <=? iter)%Z then (CStat C_MAXITER, s2)
    else if nlt (o_max_cpu o) c1e20 && nge (m_cpu e) (o_max_cpu o) then (CStat C_CPUTIME, s2)
    else if nlt (o_max_wall o) c1e20 && nge (m_wall e) (o_max_wall o) then (CStat C_WALLTIME, s2)
    else (CStat CONTINUE, s2).

(** ** The main loop *)

(** IpIpoptAlg.cpp:424-453 *)
Definition status_return (c : cstatus) : sreturn :=
  match c with
  | CONVERGED => SUCCESS
  | CONVERGED_ACCEPTABLE => STOP_AT_ACCEPTABLE_POINT
  | C_MAXITER => MAXITER_EXCEEDED
  | C_CPUTIME => CPUTIME_EXCEEDED
  | C_WALLTIME => WALLTIME_EXCEEDED
  | DIVERGING => DIVERGING_ITERATES
  | USER_STOP => USER_REQUESTED_STOP
  | CONTINUE => INTERNAL_ERROR
  end.

(** The exception handlers (461-559); None: not caught. [square]:
    IpCq().IsSquareProblem() *)
Definition catch (square : bool) (e : exn) : option sreturn :=
  match e with
  | EX_TINY_STEP => Some STOP_AT_TINY_STEP
  | EX_ACCEPTABLE_POINT_REACHED => Some STOP_AT_ACCEPTABLE_POINT
  | EX_LOCALLY_INFEASIBLE => Some LOCAL_INFEASIBILITY
  | EX_RESTO_FEASIBLE => Some (if square then FEASIBLE_POINT_FOUND else RESTORATION_FAILURE)
  | EX_RESTO_FAILED => Some RESTORATION_FAILURE
  | EX_RESTO_MAXITER => Some MAXITER_EXCEEDED
  | EX_RESTO_CPUTIME => Some CPUTIME_EXCEEDED
  | EX_RESTO_WALLTIME => Some WALLTIME_EXCEEDED
  | EX_RESTO_USER_STOP => Some USER_REQUESTED_STOP
  | EX_STEP_COMPUTATION_FAILED => Some ERROR_IN_STEP_COMPUTATION
  | EX_EVAL_ERROR => Some INVALID_NUMBER_DETECTED
  | EX_FEASIBILITY_PROBLEM_SOLVED => Some FEASIBLE_POINT_FOUND
  | EX_TOO_FEW_DOF => Some TOO_FEW_DEGREES_OF_FREEDOM
  | EX_INTERNAL_ABORT => Some INTERNAL_ERROR
  | EX_OTHER => None
  end.

(** How a run of the loop ends; [Running]: the environment's list of passes is
    exhausted while the loop is still running. *)
Inductive ending :=
  | ByCheck (c : cstatus)       (* left through the loop condition *)
  | ByThrow (e : exn)           (* left through an exception *)
  | Running.

(** What one pass of the loop body delivers: an exception, or the iteration
    counter after the line search and the number of passes of the restoration
    phase's main loop in it, or it is still running. *)
Inductive body_result := BThrow (e : exn) (nested : Z) | BNext (iter nested : Z) | BRunning (nested : Z).

(** Result of a run: ending, final iteration counter, number of passes
    including nested ones, number of own passes completed, final state *)
Record run_result (S : Type) := RunResult { rr_end : ending; rr_iter : Z; rr_total : Z; rr_own : nat; rr_state : S }.

Section Loop.
Variables (S E P : Type).
Variable check : Z -> E -> S -> cresult * S.
Variable body : Z -> P -> body_result.       (* 349-405 *)
Variable pass_check : P -> E.                (* what the check at 415 sees *)

(** IpIpoptAlg.cpp:343-417. [total]: passes so far *)
Fixpoint loop (ps : list P) (iter : Z) (c : cresult) (s : S) (total : Z) (own : nat) : run_result S :=
  match c with
  | CThrow e => RunResult (ByThrow e) iter total own s
  | CStat CONTINUE =>
      match ps with
      | [] => RunResult Running iter total own s
      | p :: rest =>
          match body iter p with
          | BThrow e n => RunResult (ByThrow e) iter (total + n) own s
          | BRunning n => RunResult Running iter (total + n) own s
          | BNext it n =>
              let '(c1, s1) := check (it + 1) (pass_check p) s in       (* 407, 415 *)
              loop rest (it + 1) c1 s1 (total + n + 1) (Datatypes.S own)
          end
      end
  | CStat st => RunResult (ByCheck st) iter total own s
  end.

(** 330-417: [init]: exception thrown by InitializeIterates or the
    statistics output *)
Definition run (init : option exn) (e0 : E) (ps : list P) (iter : Z) (s : S) : run_result S :=
  match init with
  | Some e => RunResult (ByThrow e) iter 0 0 s
  | None => let '(c, s1) := check iter e0 s in loop ps iter c s1 0 0
  end.
End Loop.

(** SolverReturn of Optimize; None: an exception leaves Optimize, or still
    running *)
Definition optimize_return (square : bool) (e : ending) : option sreturn :=
  match e with
  | ByCheck c => Some (status_return c)
  | ByThrow x => catch square x
  | Running => None
  end.

(** Answers of the steps before the line search (349-395) *)
Inductive stage := Go (b : bool) | Throw (e : exn).
Record core := Core { pc_hess : option exn; pc_mu : stage; pc_dir : stage; pc_fallback : bool }.

(** 349-395: None: the line search is called *)
Definition run_core (p : core) : option exn :=
  match pc_hess p with
  | Some e => Some e
  | None =>
      let finish (emergency : bool) :=
        if emergency then (if pc_fallback p then None else Some EX_STEP_COMPUTATION_FAILED) else None in
      match pc_mu p with
      | Throw e => Some e
      | Go mu_ok =>
          if mu_ok then
            match pc_dir p with
            | Throw e => Some e
            | Go dir_ok => finish (negb dir_ok)
            end
          else finish true
      end
  end.

(** ** Restoration phase *)

(** What one check of the restoration phase sees in addition. [r_progress]:
    TestOrigProgress returns CONVERGED *)
Record rmeasures := RMeasures {
  r_m : measures; r_square : bool;
  r_curr_inf : num; r_trial_inf : num; r_progress : bool
}.
Record ropts := ROpts {
  ro : copts;                  (* options read with the prefix resto. *)
  ro_max_resto : Z;            (* max_resto_iter *)
  ro_kappa : num;              (* required_infeasibility_reduction *)
  ro_orig_tol : num;           (* tol of the original problem *)
  ro_orig_constr : num         (* orig_constr_viol_tol_ *)
}.
(** first_resto_iter_, successive_resto_iter_, IpData().tol() of the
    restoration phase's data, and the state of the base class *)
Record rstate := RState { rs_first : bool; rs_succ : Z; rs_tol : num; rs_c : cstate }.
Definition init_rstate (o : ropts) : rstate := RState true 0 (o_tol (ro o)) init_cstate.

Definition n100 : num := nofZ 100.
Definition n01 : num := ndiv none (nofZ 10).
Definition n001 : num := ndiv none (nofZ 100).

(** RestoConvergenceCheck::CheckConvergence (IpRestoConvCheck.cpp:72-234) *)
Definition resto_check (o : ropts) (iter : Z) (e : rmeasures) (s : rstate) : cresult * rstate :=
  if negb (m_user_ok (r_m e)) then (CStat USER_STOP, s)
  else if (o_max_iter (ro o) <=? iter)%Z then (CStat C_MAXITER, s)
  else if (ro_max_resto o <? rs_succ s)%Z then (CStat C_MAXITER, s)
  else
    let s1 := RState (rs_first s) (rs_succ s + 1) (rs_tol s) (rs_c s) in
    let inf_max := if neqb (ro_kappa o) nzero then nzero
                   else nmax (nmul (ro_kappa o) (r_curr_inf e)) (nmin (ro_orig_tol o) (ro_orig_constr o)) in
    let status :=
      if rs_first s then CONTINUE
      else if r_square e && nle (r_trial_inf e) (nmin (ro_orig_tol o) (ro_orig_constr o)) then CONVERGED
      else if ngt (r_trial_inf e) inf_max then CONTINUE
      else if r_progress e then CONVERGED else CONTINUE in
    let done s := RState false (rs_succ s) (rs_tol s) (rs_c s) in
    match status with
    | CONTINUE =>
        match check_convergence (ro o) (rs_tol s1) false iter (r_m e) (rs_c s1) with
        | (CThrow x, c1) => (CThrow x, RState (rs_first s1) (rs_succ s1) (rs_tol s1) c1)
        | (CStat st, c1) =>
            let s2 := RState (rs_first s1) (rs_succ s1) (rs_tol s1) c1 in
            match st with
            | CONVERGED | CONVERGED_ACCEPTABLE =>
                if nle (r_trial_inf e) (nmul n100 (rs_tol s2)) && ngt (rs_tol s2) (nmul n01 (ro_orig_tol o))
                then (CStat CONTINUE, done (RState (rs_first s2) (rs_succ s2) (nmul n001 (rs_tol s2)) (rs_c s2)))
                else if r_square e && nle (r_trial_inf e) (ro_orig_constr o)
                then (CStat CONVERGED_ACCEPTABLE, done s2)
                else if nle (r_trial_inf e) (nmul n100 (rs_tol s2)) then (CThrow EX_RESTO_FEASIBLE, s2)
                else (CThrow EX_LOCALLY_INFEASIBLE, s2)
            | _ => (CStat st, done s2)
            end
        end
    | _ => (CStat status, done s1)
    end.

(** One pass of the restoration phase's main loop. Its own restoration phase
    (IpRestoRestoPhase.cpp) does no iterations, so the line search either
    succeeds or throws. *)
Record rpass := RPass { rp_core : core; rp_ls : option exn; rp_accept : option exn; rp_check : rmeasures }.
Definition first_exn (a b : option exn) : option exn := match a with Some e => Some e | None => b end.
Definition rbody (iter : Z) (p : rpass) : body_result :=
  match first_exn (run_core (rp_core p)) (first_exn (rp_ls p) (rp_accept p)) with
  | Some e => BThrow e 0
  | None => BNext iter 0
  end.

(** Environment of one call of PerformRestoration.
    [re_start]: exception at the start (time limits, 133-157);
    [re_init], [re_check0], [re_passes]: for Optimize(true);
    [re_square]: IsSquareProblem() of the original problem;
    [re_rsquare]: IsSquareProblem() of the restoration problem (handlers);
    [re_viol_lt], [re_viol_le]: unscaled constraint violation < / <= constr_viol_tol;
    [re_small]: primal infeasibility <= resto_failure_feasibility_threshold;
    [re_post]: exception in the computations after a success (355-426);
    [re_backup]: RestoreAcceptablePoint() *)
Record resto_env := RestoEnv {
  re_start : option exn; re_init : option exn; re_check0 : rmeasures; re_passes : list rpass;
  re_square : bool; re_rsquare : bool; re_viol_lt : bool; re_viol_le : bool; re_small : bool;
  re_post : option exn; re_backup : bool
}.

(** PerformRestoration (IpRestoMinC_1Nrm.cpp:109-436) and the reaction to its
    result (IpBacktrackingLineSearch.cpp:600-613) *)
Definition perform_restoration (o : ropts) (iter : Z) (r : resto_env) : body_result :=
  match re_start r with
  | Some e => BThrow e 0
  | None =>
      let res := run (resto_check o) rbody rp_check (re_init r) (re_check0 r) (re_passes r) (iter + 1) (init_rstate o) in
      let n := rr_total res in
      let failed := BThrow (if re_backup r then EX_ACCEPTABLE_POINT_REACHED else EX_RESTO_FAILED) n in
      match rr_end res with
      | Running => BRunning n
      | en =>
          match optimize_return (re_rsquare r) en with
          | None => BThrow EX_OTHER n           (* not caught anywhere *)
          | Some SUCCESS =>
              if re_square r && re_viol_le r then BThrow EX_FEASIBILITY_PROBLEM_SOLVED n
              else match re_post r with
                   | Some e => BThrow e n
                   | None => BNext (rr_iter res - 1) n            (* 427 *)
                   end
          | Some STOP_AT_ACCEPTABLE_POINT =>
              if re_square r && re_viol_lt r then BThrow EX_FEASIBILITY_PROBLEM_SOLVED n
              else BThrow (if re_small r then EX_RESTO_FEASIBLE else EX_LOCALLY_INFEASIBLE) n
          | Some STOP_AT_TINY_STEP => BThrow (if re_small r then EX_RESTO_FEASIBLE else EX_LOCALLY_INFEASIBLE) n
          | Some MAXITER_EXCEEDED => BThrow EX_RESTO_MAXITER n
          | Some CPUTIME_EXCEEDED => BThrow EX_RESTO_CPUTIME n
          | Some WALLTIME_EXCEEDED => BThrow EX_RESTO_WALLTIME n
          | Some LOCAL_INFEASIBILITY => BThrow EX_LOCALLY_INFEASIBLE n
          | Some RESTORATION_FAILURE => BThrow EX_RESTO_FAILED n
          | Some ERROR_IN_STEP_COMPUTATION => BThrow EX_RESTO_FAILED n
          | Some USER_REQUESTED_STOP => BThrow EX_RESTO_USER_STOP n
          | Some INVALID_NUMBER_DETECTED => failed
          | Some _ => failed
          end
      end
  end.

(** ** The main loop of the whole solve *)
Inductive ls := LsFree (e : option exn) | LsResto (r : resto_env).
Record pass := Pass { p_core : core; p_ls : ls; p_accept : option exn; p_check : measures }.

Definition main_body (o : ropts) (iter : Z) (p : pass) : body_result :=
  match run_core (p_core p) with
  | Some e => BThrow e 0
  | None =>
      let after r :=
        match r, p_accept p with
        | BNext it n, Some e => BThrow e n
        | r, _ => r
        end in
      after (match p_ls p with
             | LsFree (Some e) => BThrow e 0
             | LsFree None => BNext iter 0
             | LsResto r => perform_restoration o iter r
             end)
  end.

(** Optimize (292-563) of the original problem; the iteration counter starts at
    0 (IpIpoptData.cpp) *)
Definition main_check (o : copts) (iter : Z) (e : measures) (s : cstate) := check_convergence o (o_tol o) true iter e s.
Definition solve (o : copts) (r : ropts) (init : option exn) (e0 : measures) (ps : list pass) : run_result cstate :=
  run (main_check o) (main_body r) p_check init e0 ps 0 init_cstate.
