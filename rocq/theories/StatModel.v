(** Model of the outer layer of a solve: how the termination reason of the
    algorithm becomes the application's return status and the status given to
    finalize_solution.
    - /repo/src/Interfaces/IpIpoptApplication.cpp:468-592 (OptimizeTNLP,
      ReOptimizeTNLP, OptimizeNLP, ReOptimizeNLP) and 592-950 (call_optimize)
    - /repo/src/Interfaces/IpReturnCodes_inc.h:13-37
    - /repo/src/Interfaces/IpTNLPAdapter.cpp:2166-2190 (FinalizeSolution, choice
      of the bound multipliers)

    Everything that may throw in between (initialisation of the algorithm,
    printing of the summary, construction of the statistics, evaluations at the
    final point, the user's finalize_solution) is an environment; the theorems
    quantify over all environments. The end of the main loop is an [ending] of
    ConvModel.v. Output is left out. *)
From Coq Require Import Bool ZArith.
From Verif Require Import ConvModel.

(** IpReturnCodes_inc.h:13-37 *)
Inductive app_status :=
  | Solve_Succeeded | Solved_To_Acceptable_Level | Infeasible_Problem_Detected
  | Search_Direction_Becomes_Too_Small | Diverging_Iterates | User_Requested_Stop | Feasible_Point_Found
  | Maximum_Iterations_Exceeded | Restoration_Failed | Error_In_Step_Computation
  | Maximum_CpuTime_Exceeded | Maximum_WallTime_Exceeded
  | Not_Enough_Degrees_Of_Freedom | Invalid_Problem_Definition | Invalid_Option | Invalid_Number_Detected
  | Unrecoverable_Exception | NonIpopt_Exception_Thrown | Insufficient_Memory | Internal_Error.
Definition code (s : app_status) : Z :=
  (match s with
  | Solve_Succeeded => 0 | Solved_To_Acceptable_Level => 1 | Infeasible_Problem_Detected => 2
  | Search_Direction_Becomes_Too_Small => 3 | Diverging_Iterates => 4 | User_Requested_Stop => 5 | Feasible_Point_Found => 6
  | Maximum_Iterations_Exceeded => -1 | Restoration_Failed => -2 | Error_In_Step_Computation => -3
  | Maximum_CpuTime_Exceeded => -4 | Maximum_WallTime_Exceeded => -5
  | Not_Enough_Degrees_Of_Freedom => -10 | Invalid_Problem_Definition => -11 | Invalid_Option => -12 | Invalid_Number_Detected => -13
  | Unrecoverable_Exception => -100 | NonIpopt_Exception_Thrown => -101 | Insufficient_Memory => -102 | Internal_Error => -199
  end)%Z.

(** Exceptions as the catch clauses of the application tell them apart.
    [A_IPOPT]: any other class derived from IpoptException; [A_FOREIGN]: any
    exception that is neither of Ipopt's nor bad_alloc nor overflow_error. *)
Inductive app_exn :=
  | A_TOO_FEW_DOF | A_OPTION_INVALID | A_DYNAMIC_LIBRARY_FAILURE | A_INCONSISTENT_BOUNDS
  | A_EVAL_ERROR | A_IPOPT | A_BAD_ALLOC | A_OVERFLOW | A_FOREIGN.

(** How the main loop of the algorithm ends; [EndThrow]: an exception that no
    handler of IpoptAlgorithm::Optimize catches. [Running] of ConvModel.v is
    not an end. *)
Inductive alg_end := EndLoop (e : ending) | EndThrow (x : app_exn).

(** The environment of one call_optimize *)
Record env := ENV {
  e_init : option app_exn;      (* 627-660: p2alg->Initialize, options printing *)
  e_square : bool;              (* IpCq().IsSquareProblem() *)
  e_end : alg_end;              (* 663: p2alg->Optimize() *)
  e_post : option app_exn;      (* IpIpoptAlg.cpp:487, 545: ComputeFeasibilityMultipliersPostprocess in a handler *)
  e_summary : option app_exn;   (* 673-698: quantities of the summary *)
  e_output : option app_exn;    (* 707-760: printing of vectors and counters *)
  e_stats : option app_exn;     (* 846: SolveStatistics *)
  e_skip : bool;                (* option skip_finalize_solution_call *)
  e_point : bool;               (* IsValid(curr()) && IsValid(curr()->x()) *)
  e_final : option app_exn;     (* 934-936: curr_c(), curr_d(), curr_f() *)
  e_user : option app_exn;      (* 965: exception out of FinalizeSolution *)
  e_rethrow : bool              (* rethrow_nonipoptexception_ *)
}.

(** IpIpoptAlg.cpp:292-563 with the handlers of ConvModel.v *)
Inductive opt_result := Ret (s : sreturn) | Exn (x : app_exn).
(** 482-496 and 538-547: the two handlers that call ComputeFeasibilityMultipliersPostprocess *)
Definition postprocesses (square : bool) (e : ending) : bool :=
  match e with ByThrow EX_RESTO_FEASIBLE | ByThrow EX_FEASIBILITY_PROBLEM_SOLVED => square | _ => false end.
Definition optimize (v : env) : opt_result :=
  match e_end v with
  | EndThrow x => Exn x
  | EndLoop e =>
      match (if postprocesses (e_square v) e then e_post v else None) with
      | Some x => Exn x
      | None => match optimize_return (e_square v) e with Some s => Ret s | None => Exn A_IPOPT end
      end
  end.

(** 762-836: the table; None: "Unknown SolverReturn value" *)
Definition exit_status (s : sreturn) : option app_status :=
  match s with
  | SUCCESS => Some Solve_Succeeded
  | MAXITER_EXCEEDED => Some Maximum_Iterations_Exceeded
  | CPUTIME_EXCEEDED => Some Maximum_CpuTime_Exceeded
  | WALLTIME_EXCEEDED => Some Maximum_WallTime_Exceeded
  | STOP_AT_TINY_STEP => Some Search_Direction_Becomes_Too_Small
  | STOP_AT_ACCEPTABLE_POINT => Some Solved_To_Acceptable_Level
  | FEASIBLE_POINT_FOUND => Some Feasible_Point_Found
  | DIVERGING_ITERATES => Some Diverging_Iterates
  | RESTORATION_FAILURE => Some Restoration_Failed
  | ERROR_IN_STEP_COMPUTATION => Some Error_In_Step_Computation
  | LOCAL_INFEASIBILITY => Some Infeasible_Problem_Detected
  | USER_REQUESTED_STOP => Some User_Requested_Stop
  | INVALID_NUMBER_DETECTED => Some Invalid_Number_Detected
  | _ => None
  end.

Definition is_invalid_number (s : sreturn) : bool := match s with INVALID_NUMBER_DETECTED => true | _ => false end.

(** The try block, 625-848. Result: [Leave]: "return retValue" at 836;
    otherwise the exception that leaves the block (if any), and the values of
    retValue and status at its end *)
Inductive block := Leave (r : app_status) | Block (x : option app_exn) (r : app_status) (s : sreturn).
Definition try_block (v : env) : block :=
  match e_init v with
  | Some x => Block (Some x) Internal_Error INTERNAL_ERROR
  | None =>
      match optimize v with
      | Exn x => Block (Some x) Internal_Error INTERNAL_ERROR
      | Ret TOO_FEW_DEGREES_OF_FREEDOM => Block (Some A_TOO_FEW_DOF) Internal_Error TOO_FEW_DEGREES_OF_FREEDOM
      | Ret s =>
          let rest (s : sreturn) :=
            match e_output v with
            | Some x => Block (Some x) Internal_Error s
            | None =>
                match exit_status s with
                | None => Leave Internal_Error
                | Some r =>
                    if is_invalid_number s then Block None r s
                    else match e_stats v with Some x => Block (Some x) r s | None => Block None r s end
                end
            end in
          if is_invalid_number s then rest s
          else match e_summary v with
               | None => rest s
               | Some A_EVAL_ERROR => rest INVALID_NUMBER_DETECTED
               | Some x => Block (Some x) Internal_Error s
               end
      end
  end.

(** 849-913: the catch clauses; None: rethrown *)
Definition handle (rethrow : bool) (x : app_exn) (s : sreturn) : option (app_status * sreturn) :=
  match x with
  | A_TOO_FEW_DOF => Some (Not_Enough_Degrees_Of_Freedom, TOO_FEW_DEGREES_OF_FREEDOM)
  | A_OPTION_INVALID => Some (Invalid_Option, INVALID_OPTION)
  | A_DYNAMIC_LIBRARY_FAILURE => Some (Invalid_Option, s)
  | A_INCONSISTENT_BOUNDS => Some (Invalid_Problem_Definition, LOCAL_INFEASIBILITY)
  | A_EVAL_ERROR | A_IPOPT => Some (Unrecoverable_Exception, s)
  | A_BAD_ALLOC | A_OVERFLOW => Some (Insufficient_Memory, OUT_OF_MEMORY)
  | A_FOREIGN => if rethrow then None else Some (NonIpopt_Exception_Thrown, s)
  end.

(** 930-942 *)
Definition real_solution (s : sreturn) : bool :=
  match s with
  | SUCCESS | MAXITER_EXCEEDED | CPUTIME_EXCEEDED | WALLTIME_EXCEEDED | STOP_AT_TINY_STEP
  | STOP_AT_ACCEPTABLE_POINT | LOCAL_INFEASIBILITY | USER_REQUESTED_STOP | FEASIBLE_POINT_FOUND
  | DIVERGING_ITERATES | RESTORATION_FAILURE | ERROR_IN_STEP_COMPUTATION => true
  | _ => false
  end.

(** What the user gets: a return value or an exception, and the call of
    finalize_solution: status and whether the vectors are those of the final
    point ([true]) or zero *)
Inductive outcome := Returned (r : app_status) | Threw (x : app_exn).
Record observed := OBS { ob_out : outcome; ob_final : option (sreturn * bool) }.

(** 915-972 *)
Definition finish (v : env) (r : app_status) (s : sreturn) : observed :=
  if negb (e_skip v) && e_point v then
    let call :=
      match e_user v with
      | Some x => OBS (Threw x) (Some (s, real_solution s))
      | None => OBS (Returned r) (Some (s, real_solution s))
      end in
    if real_solution s then match e_final v with Some x => OBS (Threw x) None | None => call end else call
  else OBS (Returned r) None.

Definition call_optimize (v : env) : observed :=
  match try_block v with
  | Leave r => OBS (Returned r) None
  | Block None r s => finish v r s
  | Block (Some x) _ s =>
      match handle (e_rethrow v) x s with
      | None => OBS (Threw x) None
      | Some (r, s) => finish v r s
      end
  end.

(** 537-575: the catch clauses of OptimizeNLP *)
Definition outer_handle (rethrow : bool) (x : app_exn) : outcome :=
  match x with
  | A_OPTION_INVALID => Returned Invalid_Option
  | A_BAD_ALLOC | A_OVERFLOW => Returned Insufficient_Memory
  | A_FOREIGN => if rethrow then Threw x else Returned NonIpopt_Exception_Thrown
  | _ => Returned Unrecoverable_Exception
  end.
(** 495-580; [build]: exception while the objects are built (505-533) *)
Definition optimize_nlp (build : option app_exn) (v : env) : observed :=
  match build with
  | Some x => OBS (outer_handle (e_rethrow v) x) None
  | None =>
      let o := call_optimize v in
      match ob_out o with
      | Returned r => o
      | Threw x => OBS (outer_handle (e_rethrow v) x) (ob_final o)
      end
  end.
(** 580-590; [known]: OptimizeNLP has been called before, and with this problem *)
Definition reoptimize_nlp (known : bool) (v : env) : observed :=
  if known then call_optimize v else OBS (Threw A_IPOPT) None.

(** IpTNLPAdapter.cpp:2168-2178: the statuses for which bound multipliers of
    fixed variables are computed *)
Definition adapter_multipliers (s : sreturn) : bool :=
  match s with
  | SUCCESS | MAXITER_EXCEEDED | STOP_AT_TINY_STEP | STOP_AT_ACCEPTABLE_POINT | LOCAL_INFEASIBILITY
  | USER_REQUESTED_STOP | FEASIBLE_POINT_FOUND | DIVERGING_ITERATES | RESTORATION_FAILURE
  | ERROR_IN_STEP_COMPUTATION => true
  | _ => false
  end.
