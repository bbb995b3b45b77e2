(** Vocabulary for C29, C45: the return codes as the manual describes them
    (/repo/doc/output.dox:98-283), independent of the code that assigns them. *)
From Coq Require Import Bool ZArith.
From Verif Require Import ConvModel StatModel.

(** Why a solve ended *)
Inductive reason :=
  | OptimalPoint          (* within the desired tolerances *)
  | AcceptablePoint       (* within the acceptable tolerances *)
  | SquareFeasible        (* square problem, feasible point *)
  | LocallyInfeasible     (* minimizer of the constraint violation *)
  | TinySteps
  | DivergingX
  | CallbackSaidStop
  | IterationLimit | CpuLimit | WallLimit
  | RestorationFailed
  | NoStep                (* step computation failed *)
  | BadNumber             (* NaN or infinity at a point where it cannot be avoided *)
  | TooFewDof
  | BadBounds             (* lower > upper *)
  | BadOption | NoSolverLibrary
  | NoMemory
  | OtherIpoptException | ForeignException
  | InternalAbort.

Definition documented (r : reason) : app_status :=
  match r with
  | OptimalPoint => Solve_Succeeded
  | AcceptablePoint => Solved_To_Acceptable_Level
  | SquareFeasible => Feasible_Point_Found
  | LocallyInfeasible => Infeasible_Problem_Detected
  | TinySteps => Search_Direction_Becomes_Too_Small
  | DivergingX => Diverging_Iterates
  | CallbackSaidStop => User_Requested_Stop
  | IterationLimit => Maximum_Iterations_Exceeded
  | CpuLimit => Maximum_CpuTime_Exceeded
  | WallLimit => Maximum_WallTime_Exceeded
  | RestorationFailed => Restoration_Failed
  | NoStep => Error_In_Step_Computation
  | BadNumber => Invalid_Number_Detected
  | TooFewDof => Not_Enough_Degrees_Of_Freedom
  | BadBounds => Invalid_Problem_Definition
  | BadOption | NoSolverLibrary => Invalid_Option
  | NoMemory => Insufficient_Memory
  | OtherIpoptException => Unrecoverable_Exception
  | ForeignException => NonIpopt_Exception_Thrown
  | InternalAbort => Internal_Error
  end.

(** The reason behind an exception that the algorithm itself does not handle *)
Definition reason_of_exn (x : app_exn) : reason :=
  match x with
  | A_TOO_FEW_DOF => TooFewDof | A_OPTION_INVALID => BadOption | A_DYNAMIC_LIBRARY_FAILURE => NoSolverLibrary
  | A_INCONSISTENT_BOUNDS => BadBounds | A_EVAL_ERROR | A_IPOPT => OtherIpoptException
  | A_BAD_ALLOC | A_OVERFLOW => NoMemory | A_FOREIGN => ForeignException
  end.

(** Why the algorithm stopped, from how its loop ended *)
Inductive stopped (square : bool) : ending -> reason -> Prop :=
  | s_conv : stopped square (ByCheck CONVERGED) OptimalPoint
  | s_acc : stopped square (ByCheck CONVERGED_ACCEPTABLE) AcceptablePoint
  | s_acc' : stopped square (ByThrow EX_ACCEPTABLE_POINT_REACHED) AcceptablePoint
  | s_iter : stopped square (ByCheck C_MAXITER) IterationLimit
  | s_iter' : stopped square (ByThrow EX_RESTO_MAXITER) IterationLimit
  | s_cpu : stopped square (ByCheck C_CPUTIME) CpuLimit
  | s_cpu' : stopped square (ByThrow EX_RESTO_CPUTIME) CpuLimit
  | s_wall : stopped square (ByCheck C_WALLTIME) WallLimit
  | s_wall' : stopped square (ByThrow EX_RESTO_WALLTIME) WallLimit
  | s_div : stopped square (ByCheck DIVERGING) DivergingX
  | s_user : stopped square (ByCheck USER_STOP) CallbackSaidStop
  | s_user' : stopped square (ByThrow EX_RESTO_USER_STOP) CallbackSaidStop
  | s_tiny : stopped square (ByThrow EX_TINY_STEP) TinySteps
  | s_inf : stopped square (ByThrow EX_LOCALLY_INFEASIBLE) LocallyInfeasible
  | s_feas : square = true -> stopped square (ByThrow EX_RESTO_FEASIBLE) SquareFeasible
  | s_feas' : stopped square (ByThrow EX_FEASIBILITY_PROBLEM_SOLVED) SquareFeasible
  | s_resto : square = false -> stopped square (ByThrow EX_RESTO_FEASIBLE) RestorationFailed
  | s_resto' : stopped square (ByThrow EX_RESTO_FAILED) RestorationFailed
  | s_step : stopped square (ByThrow EX_STEP_COMPUTATION_FAILED) NoStep
  | s_num : stopped square (ByThrow EX_EVAL_ERROR) BadNumber
  | s_dof : stopped square (ByThrow EX_TOO_FEW_DOF) TooFewDof
  | s_abort : stopped square (ByThrow EX_INTERNAL_ABORT) InternalAbort
  | s_other : stopped square (ByThrow EX_OTHER) OtherIpoptException.

(** Why a whole solve ended: an exception while the objects are built or
    initialised, one that leaves the algorithm, or the algorithm's own reason. *)
Inductive solve_ended (build : option app_exn) (v : env) : reason -> Prop :=
  | se_init x : build = None -> e_init v = Some x -> solve_ended build v (reason_of_exn x)
  | se_throw x : build = None -> e_init v = None -> e_end v = EndThrow x -> solve_ended build v (reason_of_exn x)
  | se_loop e r : build = None -> e_init v = None -> e_end v = EndLoop e -> stopped (e_square v) e r ->
      (e_square v = true -> e_post v = None) -> solve_ended build v r.

(** After the algorithm has ended nothing fails any more: neither the summary,
    nor the statistics, nor the evaluations for finalize_solution, nor the
    user's finalize_solution. *)
Definition quiet_end (v : env) : Prop :=
  e_summary v = None /\ e_output v = None /\ e_stats v = None /\ e_final v = None /\ e_user v = None.

(** The meaning of the status given to finalize_solution
    (/repo/src/Interfaces/IpAlgTypes.hpp:19-39) *)
Definition describes (s : sreturn) (r : reason) : Prop :=
  match r with
  | OptimalPoint => s = SUCCESS
  | AcceptablePoint => s = STOP_AT_ACCEPTABLE_POINT
  | SquareFeasible => s = FEASIBLE_POINT_FOUND
  | LocallyInfeasible => s = LOCAL_INFEASIBILITY
  | TinySteps => s = STOP_AT_TINY_STEP
  | DivergingX => s = DIVERGING_ITERATES
  | CallbackSaidStop => s = USER_REQUESTED_STOP
  | IterationLimit => s = MAXITER_EXCEEDED
  | CpuLimit => s = CPUTIME_EXCEEDED
  | WallLimit => s = WALLTIME_EXCEEDED
  | RestorationFailed => s = RESTORATION_FAILURE
  | NoStep => s = ERROR_IN_STEP_COMPUTATION
  | BadNumber => s = INVALID_NUMBER_DETECTED
  | TooFewDof => s = TOO_FEW_DEGREES_OF_FREEDOM
  | BadOption => s = INVALID_OPTION
  | NoMemory => s = OUT_OF_MEMORY
  | BadBounds => s = LOCAL_INFEASIBILITY
  | NoSolverLibrary | OtherIpoptException | ForeignException | InternalAbort => s = INTERNAL_ERROR
  end.

(** Return codes that come with a point the user may use (0..6) *)
Definition solved_codes (r : app_status) : Prop := (0 <= code r)%Z.
