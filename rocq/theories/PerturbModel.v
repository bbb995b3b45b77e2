(** Model of the inertia correction.
    /repo/src/Algorithm/IpPDPerturbationHandler.cpp, .hpp, and the loop that
    uses it, /repo/src/Algorithm/IpPDFullSpaceSolver.cpp:484-650.

    Simplifications: the value of delta_cd() (cpp:467-470,
    delta_cd_val_ * pow(curr_mu, delta_cd_exp_)) is an argument [cd] of every
    call, because pow is a library function; info strings and journal output
    are left out; delta_x_last_ is kept, delta_s_last_, delta_c_last_ and
    delta_d_last_ are left out because nothing reads them.
    The caller's variables delta_x, ... are [option num]: [None] is an
    uninitialised variable. *)
From Coq Require Import List Bool ZArith.
From Verif Require Import Num.
Import ListNotations.
Set Implicit Arguments.

(** Algorithmic parameters (hpp:175-205); degen_iters_max_ = 3 and
    reset_last_ = false are set by the constructor (cpp:17-21). *)
Record popts := POpts {
  o_max : num;        (* max_hessian_perturbation *)
  o_min : num;        (* min_hessian_perturbation *)
  o_first : num;      (* perturb_inc_fact_first *)
  o_inc : num;        (* perturb_inc_fact *)
  o_dec : num;        (* perturb_dec_fact *)
  o_init : num;       (* first_hessian_perturbation *)
  o_always : bool     (* perturb_always_cd *)
}.
Definition reset_last : bool := false.
Definition degen_iters_max : nat := 3.

Inductive degen := NYD | NotDegen | Degen.
Inductive tstatus := NO_TEST | EQ0_EQ0 | GT0_EQ0 | EQ0_GT0 | GT0_GT0.
(* TEST_DELTA_C_EQ_0_DELTA_X_EQ_0 etc. *)

Definition is_nyd (d : degen) : bool := match d with NYD => true | _ => false end.
Definition is_degen (d : degen) : bool := match d with Degen => true | _ => false end.

Record handler := Handler {
  x_last : num;
  x_curr : num; s_curr : num; c_curr : num; d_curr : num;
  hess : degen; jac : degen;
  iters : nat;          (* degen_iters_ *)
  status : tstatus
}.

(** Variables of the caller *)
Record deltas := Deltas { dx : option num; ds : option num; dc : option num; dd : option num }.
Definition uninit : deltas := Deltas None None None None.

(** InitializeImpl (cpp:103-142), after the options have been read *)
Definition init_handler (o : popts) : handler :=
  Handler nzero nzero nzero nzero nzero NYD (if o_always o then NotDegen else NYD) 0 NO_TEST.

(** finalize_test (cpp:472-540) *)
Definition finalize_test (h : handler) : handler :=
  let set he ja it :=
    Handler (x_last h) (x_curr h) (s_curr h) (c_curr h) (d_curr h) he ja it (status h) in
  match status h with
  | NO_TEST => h
  | EQ0_EQ0 =>
      if is_nyd (hess h) && is_nyd (jac h) then set NotDegen NotDegen (iters h)
      else if is_nyd (hess h) then set NotDegen (jac h) (iters h)
      else if is_nyd (jac h) then set (hess h) NotDegen (iters h)
      else h
  | GT0_EQ0 =>
      let he := if is_nyd (hess h) then NotDegen else hess h in
      if is_nyd (jac h) then
        let it := S (iters h) in
        set he (if Nat.leb degen_iters_max it then Degen else jac h) it
      else set he (jac h) (iters h)
  | EQ0_GT0 =>
      let ja := if is_nyd (jac h) then NotDegen else jac h in
      if is_nyd (hess h) then
        let it := S (iters h) in
        set (if Nat.leb degen_iters_max it then Degen else hess h) ja it
      else set (hess h) ja (iters h)
  | GT0_GT0 =>
      let it := S (iters h) in
      if Nat.leb degen_iters_max it then set Degen Degen it
      else set (hess h) (jac h) it
  end.

Definition c1e5 : num := nofZ 100000.

(** get_deltas_for_wrong_inertia (cpp:368-419): the new handler, the caller's
    variables and the return value *)
Definition get_deltas (o : popts) (h : handler) (v : deltas) : bool * handler * deltas :=
  let x :=
    if neqb (x_curr h) nzero then
      if neqb (x_last h) nzero then o_init o
      else nmax (o_min o) (nmul (x_last h) (o_dec o))
    else if neqb (x_last h) nzero || nlt (nmul c1e5 (x_last h)) (x_curr h)
      then nmul (o_first o) (x_curr h)
      else nmul (o_inc o) (x_curr h) in
  if ngt x (o_max o) then
    (false, Handler nzero x (s_curr h) (c_curr h) (d_curr h) (hess h) (jac h) (iters h) (status h), v)
  else
    (true, Handler (x_last h) x x (c_curr h) (d_curr h) (hess h) (jac h) (iters h) (status h),
     Deltas (Some x) (Some x) (Some (c_curr h)) (Some (d_curr h))).

Definition set_cd (h : handler) (c : num) : handler :=
  Handler (x_last h) (x_curr h) (s_curr h) c c (hess h) (jac h) (iters h) (status h).
Definition set_xs (h : handler) (x : num) : handler :=
  Handler (x_last h) x x (c_curr h) (d_curr h) (hess h) (jac h) (iters h) (status h).
Definition set_status (h : handler) (t : tstatus) : handler :=
  Handler (x_last h) (x_curr h) (s_curr h) (c_curr h) (d_curr h) (hess h) (jac h) (iters h) t.
Definition set_hess (h : handler) (d : degen) : handler :=
  Handler (x_last h) (x_curr h) (s_curr h) (c_curr h) (d_curr h) d (jac h) (iters h) (status h).
Definition set_last (h : handler) (x : num) : handler :=
  Handler x (x_curr h) (s_curr h) (c_curr h) (d_curr h) (hess h) (jac h) (iters h) (status h).

Definition current (h : handler) : deltas :=
  Deltas (Some (x_curr h)) (Some (s_curr h)) (Some (c_curr h)) (Some (d_curr h)).

(** ConsiderNewSystem (cpp:144-245) *)
Definition consider_new (o : popts) (cd : num) (h0 : handler) (v : deltas) : bool * handler * deltas :=
  let h1 := finalize_test h0 in
  let h2 := if reset_last then set_last h1 (x_curr h1)
            else if ngt (x_curr h1) nzero then set_last h1 (x_curr h1) else h1 in
  let h3 := set_status h2
      (if is_nyd (hess h2) || is_nyd (jac h2)
       then (if negb (o_always o) then EQ0_EQ0 else GT0_EQ0) else NO_TEST) in
  let c := if is_degen (jac h3) then cd else if o_always o then cd else nzero in
  let h4 := set_cd h3 c in
  let v4 := Deltas (dx v) (ds v) (Some c) (Some c) in
  if is_degen (hess h4) then
    let '(r, h5, v5) := get_deltas o (set_xs h4 nzero) v4 in
    if negb r then (false, h5, v5)
    else (true, h5, v5)   (* cpp:235-238 store the values get_deltas has just stored *)
  else
    (true, set_xs h4 nzero, Deltas (Some nzero) (Some nzero) (Some c) (Some c)).

(** PerturbForSingularity (cpp:247-366) *)
Definition perturb_singular (o : popts) (cd : num) (h : handler) (v : deltas) : bool * handler * deltas :=
  let get h t :=
    let '(r, h1, v1) := get_deltas o h v in
    if negb r then (false, h1, v1)
    else (true, set_status h1 t, current h1) in
  if is_nyd (hess h) || is_nyd (jac h) then
    match status h with
    | EQ0_EQ0 =>
        if is_nyd (jac h) then
          let h1 := set_status (set_cd h cd) GT0_EQ0 in (true, h1, current h1)
        else get h EQ0_GT0
    | GT0_EQ0 =>
        if negb (o_always o) then get (set_cd h nzero) EQ0_GT0
        else get h GT0_GT0
    | EQ0_GT0 => get (set_cd h cd) GT0_GT0
    | GT0_GT0 => get h GT0_GT0
    | NO_TEST => (true, h, current h)
    end
  else if ngt (c_curr h) nzero then
    let '(r, h1, v1) := get_deltas o h v in
    if negb r then (false, h1, v1) else (true, h1, current h1)
  else
    let h1 := set_cd h cd in (true, h1, current h1).

(** [delta == 0.] for a variable that may be uninitialised (then any answer is
    possible; the model answers false) *)
Definition is_zero_var (x : option num) : bool :=
  match x with Some a => neqb a nzero | None => false end.

(** PerturbForWrongInertia (cpp:421-452) *)
Definition perturb_inertia (o : popts) (cd : num) (h0 : handler) (v : deltas) : bool * handler * deltas :=
  let h := finalize_test h0 in
  let '(r, h1, v1) := get_deltas o h v in
  if negb r && is_zero_var (dc v1) then
    let h2 := set_status (set_xs (set_cd h1 cd) nzero) NO_TEST in
    let h3 := if is_degen (hess h2) then set_hess h2 NYD else h2 in
    get_deltas o h3 v1
  else (r, h1, v1).

(** Calls on the handler. *)
Inductive call := New | Singular | Inertia.

Definition do_call (o : popts) (cd : num) (c : call) (h : handler) (v : deltas) :=
  match c with
  | New => consider_new o cd h v
  | Singular => perturb_singular o cd h v
  | Inertia => perturb_inertia o cd h v
  end.

(** ** The retry loop of PDFullSpaceSolver::SolveOnce
    (IpPDFullSpaceSolver.cpp:497-640).

    Per iteration the linear solver answers; [few] tells whether
    NumberOfNegEVals() < numberOfEVals (541), [bad_curv] whether the
    inertia-free curvature test fails (592-637; false when neg_curv_test_tol_
    is zero), [improve] the result of IncreaseQuality() (554).
    [nconstr] tells whether there are constraints at all (527). *)
Inductive verdict :=
  | VSuccess (bad_curv : bool) | VSingular | VWrongInertia (few improve : bool) | VFatal.

Inductive outcome := Solved (v : deltas) | Failed | Running.

Record loop := Loop { l_h : handler; l_v : deltas; l_improved : bool; l_out : outcome }.

(** one pass through the loop body *)
Definition solve_step (o : popts) (cd : num) (nconstr : bool) (a : verdict) (l : loop) : loop :=
  let h := l_h l in
  let v := l_v l in
  let retry (res : bool * handler * deltas) imp :=
    let '(r, h1, v1) := res in
    Loop h1 v1 imp (if r then Running else Failed) in
  match a with
  | VFatal => Loop h v (l_improved l) Failed
  | VSingular =>
      if nconstr then retry (perturb_singular o cd h v) (l_improved l)
      else retry (perturb_inertia o cd h v) (l_improved l)
  | VWrongInertia few improve =>
      if few then
        if negb (l_improved l) && improve then Loop h v true Running
        else retry (perturb_singular o cd h v) (l_improved l)
      else retry (perturb_inertia o cd h v) (l_improved l)
  | VSuccess bad_curv =>
      if bad_curv then retry (perturb_inertia o cd h v) (l_improved l)
      else Loop h v (l_improved l) (Solved v)
  end.

Fixpoint solve_run (o : popts) (cd : num) (nconstr : bool) (answers : list verdict) (l : loop) : loop :=
  match answers with
  | [] => l
  | a :: r =>
      match l_out l with
      | Running => solve_run o cd nconstr r (solve_step o cd nconstr a l)
      | _ => l
      end
  end.

(** IpPDFullSpaceSolver.cpp:493-499: the result of ConsiderNewSystem is not
    looked at. *)
Definition solve_start (o : popts) (cd : num) (improved : bool) (h : handler) : loop :=
  let '(_, h1, v1) := consider_new o cd h uninit in Loop h1 v1 improved Running.
