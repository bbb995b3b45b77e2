(** Model of src/Algorithm/LinearSolvers/IpTSymLinearSolver.cpp and of IpSlackBasedTSymScalingMethod.cpp.

    The sparse solver behind it (SparseSymLinearSolverInterface) and the scaling method (TSymScalingMethod) are
    operations on one arbitrary state W. The matrix is what TripletHelper makes of it (C56): dimension, positions and
    values of the triplets, and its tag. The conversion to compressed rows is CsrModel (C13), with the result of
    std::sort on the entries as a function. Numbers are the reals. Timing, output and asserts are left out.
    [None]: undefined behaviour (a read outside of an array). *)
From Coq Require Import Reals List Arith Bool.
From Verif Require CsrModel.
From Verif Require Import PdModel.
Import ListNotations.
Open Scope R_scope.

(** SparseSymLinearSolverInterface::EMatrixFormat *)
Inductive fmt := TripF | CsrF (hf : CsrModel.trifull) (off : nat).
(** a symmetric matrix: its tag, and what TripletHelper::FillRowCol and FillValues write *)
Record smat := SMat { m_tag : nat; m_dim : nat; m_ir : list nat; m_jc : list nat; m_val : list R }.
Definition m_nz (A : smat) : nat := length (m_ir A).

Record env (W : Type) := Env {
  w_init : bool -> W -> bool * W;                   (* solver_interface_->Initialize; the argument: warm_start_same_structure *)
  w_fmt : W -> fmt;                                 (* MatrixFormat *)
  w_struct : nat -> nat -> CsrModel.arr -> CsrModel.arr -> W -> status * W;   (* InitializeStructure(dim, nonzeros, ia, ja) *)
  w_get : nat -> W -> list R;                       (* content of the array GetValuesArrayPtr returns, that many elements *)
  w_put : list R -> W -> W;                         (* writing into it *)
  w_solve : bool -> CsrModel.arr -> CsrModel.arr -> nat -> list R -> bool -> nat -> W -> status * list R * W;  (* MultiSolve; the array rhs_vals afterwards *)
  w_incq : W -> bool * W;                           (* IncreaseQuality *)
  w_scinit : W -> bool * W;                         (* scaling_method_->Initialize *)
  w_scale : nat -> list nat -> list nat -> list R -> W -> bool * list R * W   (* ComputeSymTScalingFactors; the factors *)
}.
Arguments w_init {W}. Arguments w_fmt {W}. Arguments w_struct {W}. Arguments w_get {W}. Arguments w_put {W}. Arguments w_solve {W}.
Arguments w_incq {W}. Arguments w_scinit {W}. Arguments w_scale {W}.

(** what the object does with the solver, newest first (only for the statements) *)
Inductive event := E_struct (dim nz : nat) (ia ja : CsrModel.arr) (r : status) | E_put (v : list R)
  | E_solve (new : bool) (ia ja : CsrModel.arr) (r : status).

(** IpTSymLinearSolver.hpp 110-190 *)
Record ts (W : Type) := TS {
  s_w : W; s_atag : nat; s_dim : nat; s_nzt : nat; s_nzc : nat; s_ir : list nat; s_jc : list nat; s_fac : list R;
  s_have : bool; s_init : bool; s_fmt : fmt; s_conv : option CsrModel.conv; s_use : bool; s_just : bool; s_ondemand : bool; s_ev : list event
}.
Arguments TS {W}. Arguments s_w {W}. Arguments s_atag {W}. Arguments s_dim {W}. Arguments s_nzt {W}. Arguments s_nzc {W}.
Arguments s_ir {W}. Arguments s_jc {W}. Arguments s_fac {W}. Arguments s_have {W}. Arguments s_init {W}. Arguments s_fmt {W}.
Arguments s_conv {W}. Arguments s_use {W}. Arguments s_just {W}. Arguments s_ondemand {W}. Arguments s_ev {W}.

(** IpTSymLinearSolver.cpp 22-40 *)
Definition new_ts {W} (w : W) : ts W := TS w 0 0 0 0 [] [] [] false false TripF None false false false [].

Inductive res := Ret (r : status) (sols : list (list R)) | Throw | OutOfFuel.

Section T.
Context {W : Type}.
Variable E : env W.
Variable scaling : bool.                            (* IsValid(scaling_method_) *)
Variable sort : list CsrModel.entry -> list CsrModel.entry.   (* std::sort *)
Notation ts := (ts W).
Definition set_w (s : ts) (w : W) : ts :=
  TS w (s_atag s) (s_dim s) (s_nzt s) (s_nzc s) (s_ir s) (s_jc s) (s_fac s) (s_have s) (s_init s) (s_fmt s) (s_conv s) (s_use s) (s_just s) (s_ondemand s) (s_ev s).
Definition log (s : ts) (e : event) : ts :=
  TS (s_w s) (s_atag s) (s_dim s) (s_nzt s) (s_nzc s) (s_ir s) (s_jc s) (s_fac s) (s_have s) (s_init s) (s_fmt s) (s_conv s) (s_use s) (s_just s) (s_ondemand s) (e :: s_ev s).
Definition set_fac (s : ts) (f : list R) (just : bool) : ts :=
  TS (s_w s) (s_atag s) (s_dim s) (s_nzt s) (s_nzc s) (s_ir s) (s_jc s) f (s_have s) (s_init s) (s_fmt s) (s_conv s) (s_use s) just (s_ondemand s) (s_ev s).
Definition set_atag (s : ts) (t : nat) : ts :=
  TS (s_w s) t (s_dim s) (s_nzt s) (s_nzc s) (s_ir s) (s_jc s) (s_fac s) (s_have s) (s_init s) (s_fmt s) (s_conv s) (s_use s) (s_just s) (s_ondemand s) (s_ev s).
Definition set_init (s : ts) (b : bool) : ts :=
  TS (s_w s) (s_atag s) (s_dim s) (s_nzt s) (s_nzc s) (s_ir s) (s_jc s) (s_fac s) (s_have s) b (s_fmt s) (s_conv s) (s_use s) (s_just s) (s_ondemand s) (s_ev s).

(** InitializeImpl 61-151. [on_demand]: option linear_scaling_on_demand; [warm]: warm_start_same_structure.
    None: INVALID_WARMSTART is thrown. The converter is created here (conv: None until InitializeConverter) *)
Definition initialize (on_demand warm : bool) (s : ts) : option bool * ts :=
  let od := if scaling then on_demand else false in
  let (ok, w) := w_init E warm (s_w s) in
  let s := TS w (s_atag s) (s_dim s) (s_nzt s) (s_nzc s) (s_ir s) (s_jc s) (s_fac s) (s_have s) (s_init s) (s_fmt s) (s_conv s) (s_use s) (s_just s) od (s_ev s) in
  if negb ok then (Some false, s) else
  if warm && negb (s_have s) then (None, s) else
  let s := if warm then s
           else TS (s_w s) 0 0 0 0 (s_ir s) (s_jc s) (s_fac s) false (s_init s) (w_fmt E (s_w s)) None (s_use s) (s_just s) od (s_ev s) in
  let s := TS (s_w s) (s_atag s) (s_dim s) (s_nzt s) (s_nzc s) (s_ir s) (s_jc s) (s_fac s) (s_have s) false (s_fmt s) (s_conv s)
              (scaling && negb od) false od (s_ev s) in
  if scaling then let (ok, w) := w_scinit E (s_w s) in (Some ok, set_w s w) else (Some true, s).

(** IA(), JA(), and the arrays airn_, ajcn_ *)
Definition ia_ja (s : ts) : CsrModel.arr * CsrModel.arr :=
  match s_fmt s with
  | TripF => (map Some (s_ir s), map Some (s_jc s))
  | CsrF _ _ => match s_conv s with Some v => (CsrModel.v_ia v, CsrModel.v_ja v) | None => ([], []) end
  end.
(** InitializeStructure 314-421. outer None: undefined behaviour; inner None: INVALID_WARMSTART *)
Definition init_structure (A : smat) (s : ts) : option (option status * ts) :=
  if negb (s_have s) then
    let s1 := TS (s_w s) (s_atag s) (m_dim A) (m_nz A) (s_nzc s) (m_ir A) (m_jc A) (s_fac s) (s_have s) (s_init s) (s_fmt s) (s_conv s) (s_use s) (s_just s) (s_ondemand s) (s_ev s) in
    let go (s1 : ts) (nz : nat) :=
      let (ia, ja) := ia_ja s1 in
      let (r, w) := w_struct E (s_dim s1) nz ia ja (s_w s1) in
      let s2 := log (set_w s1 w) (E_struct (s_dim s1) nz ia ja r) in
      match r with
      | SUCCESS => Some (Some SUCCESS, TS (s_w s2) (s_atag s2) (s_dim s2) (s_nzt s2) (s_nzc s2) (s_ir s2) (s_jc s2)
                      (if scaling then repeat 0 (s_dim s2) else []) true true (s_fmt s2) (s_conv s2) (s_use s2) (s_just s2) (s_ondemand s2) (s_ev s2))
      | _ => Some (Some r, s2)
      end in
    match s_fmt s with
    | TripF => go s1 (s_nzt s1)
    | CsrF hf off =>
        match CsrModel.initialize hf off (m_dim A) (sort (CsrModel.entry_list 0 (m_ir A) (m_jc A))) with
        | None => None
        | Some v => go (TS (s_w s1) (s_atag s1) (s_dim s1) (s_nzt s1) (CsrModel.v_nc v) (s_ir s1) (s_jc s1) (s_fac s1) (s_have s1) (s_init s1)
                           (s_fmt s1) (Some v) (s_use s1) (s_just s1) (s_ondemand s1) (s_ev s1)) (CsrModel.v_nc v)
        end
    end
  else
    if negb (s_dim s =? m_dim A)%nat then Some (None, s) else
    let (ia, ja) := ia_ja s in
    let nz := match s_fmt s with TripF => s_nzt s | CsrF _ _ => s_nzc s end in
    let (r, w) := w_struct E (s_dim s) nz ia ja (s_w s) in
    Some (Some r, set_init (log (set_w s w) (E_struct (s_dim s) nz ia ja r)) true).

(** GiveMatrixToSolver 455-541. None: undefined behaviour; (false, _): exception *)
Definition give_matrix (new : bool) (A : smat) (s : ts) : option (bool * ts) :=
  let at0 := m_val A in
  (* FillValues writes into the solver's array directly if that has the triplet format *)
  let s := match s_fmt s with TripF => set_w s (w_put E at0 (s_w s)) | _ => s end in
  let '(ok, s) :=
    if s_use s && (new || s_just s) then
      let '(ok, f, w) := w_scale E (s_dim s) (s_ir s) (s_jc s) at0 (s_w s) in
      if ok then (true, set_fac (set_w s w) f false) else (false, set_fac (set_w s w) f (s_just s))
    else (true, s) in
  if negb ok then Some (false, s) else
  let scaled :=
    if s_use s then map (fun t => snd t * (nth (fst (fst t) - 1) (s_fac s) 0 * nth (snd (fst t) - 1) (s_fac s) 0))
                        (combine (combine (s_ir s) (s_jc s)) at0)
    else at0 in
  match s_fmt s with
  | TripF => Some (true, log (set_w s (w_put E scaled (s_w s))) (E_put scaled))
  | CsrF _ _ =>
      match s_conv s with
      | None => None
      | Some v =>
          match CsrModel.convert_values Rplus v scaled (w_get E (s_nzc s) (s_w s)) with
          | None => None
          | Some pa => Some (true, log (set_w s (w_put E pa (s_w s))) (E_put pa))
          end
      end
  end.

(** the right hand side number k in the array rhs_vals *)
Definition slice (d k : nat) (l : list R) : list R := firstn d (skipn (k * d) l).
Definition scale_with (f b : list R) : list R := map (fun p => fst p * snd p) (combine b f).
(** 235-270: the loop around solver_interface_->MultiSolve, [fuel] rounds *)
Fixpoint solve_loop (fuel : nat) (new : bool) (A : smat) (nrhs : nat) (rhs : list R) (chk : bool) (n : nat) (s : ts)
  : option (option (status * list R) * bool * ts) :=
  match fuel with
  | O => Some (None, false, s)
  | S fuel =>
      let (ia, ja) := ia_ja s in
      let '(r, rhs', w) := w_solve E new ia ja nrhs rhs chk n (s_w s) in
      let s := log (set_w s w) (E_solve new ia ja r) in
      match r with
      | CALL_AGAIN =>
          match give_matrix false A s with
          | None => None
          | Some (false, s) => Some (None, true, s)
          | Some (true, s) => solve_loop fuel new A nrhs rhs' chk n s
          end
      | _ => Some (Some (r, rhs'), false, s)
      end
  end.
(** MultiSolve 153-312 *)
Definition multi_solve (fuel : nat) (A : smat) (rhsV : list (list R)) (chk : bool) (n : nat) (s : ts) : option (res * ts) :=
  let st := if s_init s then Some (Some SUCCESS, s) else init_structure A s in
  match st with
  | None => None
  | Some (None, s) => Some (Throw, s)
  | Some (Some SUCCESS, s) =>
      let new := negb (m_tag A =? s_atag s)%nat in
      let s := set_atag s (m_tag A) in
      match (if new || s_just s then match give_matrix true A s with None => None | Some (ok, s) => Some (ok, true, s) end
             else Some (true, new, s)) with
      | None => None
      | Some (false, _, s) => Some (Throw, s)
      | Some (true, new, s) =>
          let nrhs := length rhsV in
          let rhs := concat (map (fun b => if s_use s then scale_with (s_fac s) b else b) rhsV) in
          match solve_loop fuel new A nrhs rhs chk n s with
          | None => None
          | Some (None, true, s) => Some (Throw, s)
          | Some (None, false, s) => Some (OutOfFuel, s)
          | Some (Some (SUCCESS, sol), _, s) =>
              let x k := slice (s_dim s) k sol in
              Some (Ret SUCCESS (map (fun k => if s_use s then scale_with (s_fac s) (x k) else x k) (seq 0 nrhs)), s)
          | Some (Some (r, _), _, s) => Some (Ret r [], s)
          end
      end
  | Some (Some r, s) => Some (Ret r [], s)
  end.
(** IncreaseQuality 429-446 *)
Definition increase_quality (s : ts) : bool * ts :=
  if scaling && negb (s_use s) && s_ondemand s then
    (true, TS (s_w s) (s_atag s) (s_dim s) (s_nzt s) (s_nzc s) (s_ir s) (s_jc s) (s_fac s) (s_have s) (s_init s) (s_fmt s) (s_conv s) true true (s_ondemand s) (s_ev s))
  else let (b, w) := w_incq E (s_w s) in (b, set_w s w).
End T.

(** * SlackBasedTSymScalingMethod::ComputeSymTScalingFactors (25-79); [pL], [pU]: the positions of the bounded slack variables
    (the expansion matrices Pd_L, Pd_U), [sL], [sU]: their slacks *)
Definition slack_factors (nx ns nc nd : nat) (pL pU : list nat) (sL sU : list R) : list R :=
  let at_ (p : list nat) (v : list R) (i : nat) := fold_right Rplus 0 (map (fun t => if (fst t =? i)%nat then snd t else 0) (List.combine p v)) in
  repeat 1 nx ++ map (fun i => Rmin (at_ pL sL i + at_ pU sU i) 1) (seq 0 ns) ++ repeat 1 (nc + nd).
