(** What a symmetric linear solver promises, and what it assumes of the sparse solver and the scaling method behind it. *)
From Coq Require Import Reals List Arith Bool Permutation Sorted.
From Verif Require CsrModel.
From Verif Require Import CsrSpec CsrProps.
From Verif Require Import PdModel TsModel.
Import ListNotations.
Open Scope R_scope.

(** ** Matrices and linear systems; rows and columns count from 1 *)
Definition at_pos (r c i j : nat) : bool := ((r =? i) && (c =? j) || (r =? j) && (c =? i))%nat.
(** the symmetric matrix of triplets: entry (i,j) is the sum of the triplets at (i,j) or (j,i) *)
Fixpoint tmat (ir jc : list nat) (v : list R) (i j : nat) : R :=
  match ir, jc, v with
  | r :: ir, c :: jc, x :: v => (if at_pos r c i j then x else 0) + tmat ir jc v i j
  | _, _, _ => 0
  end.
Definition matrix (A : smat) : nat -> nat -> R := tmat (m_ir A) (m_jc A) (m_val A).
Definition el (x : list R) (i : nat) : R := nth (i - 1) x 0.
Fixpoint sum1 (n : nat) (g : nat -> R) : R := match n with O => 0 | Datatypes.S k => sum1 k g + g (Datatypes.S k) end.
Definition solves (d : nat) (M : nat -> nat -> R) (x b : list R) : Prop :=
  length x = d /\ forall i, (1 <= i <= d)%nat -> sum1 d (fun j => M i j * el x j) = el b i.

(** ** What the arrays given to the sparse solver mean: the documented formats *)
Definition denotes (f : fmt) (d : nat) (ia ja : CsrModel.arr) (vals : list R) (M : nat -> nat -> R) : Prop :=
  match f with
  | TripF => exists ir jc, ia = map Some ir /\ ja = map Some jc /\ length ir = length vals /\ length jc = length vals /\
      forall i j, (1 <= i <= d)%nat -> (1 <= j <= d)%nat -> M i j = tmat ir jc vals i j
  | CsrF hf off => exists ia' ja', ia = map Some ia' /\ ja = map Some ja' /\ length ja' = length vals /\ csr_shape off d ia' ja' /\
      (forall i j, (1 <= i <= d)%nat -> (1 <= j <= d)%nat -> M i j = M j i) /\
      forall i j, (1 <= i <= d)%nat -> (1 <= j <= d)%nat -> (hf = CsrModel.Triangular -> (i <= j)%nat) ->
        (forall p, csr_pos off ia' ja' i j p -> nth_error vals p = Some (M i j)) /\
        ((forall p, ~ csr_pos off ia' ja' i j p) -> M i j = 0)
  end.

(** ** What is assumed of the sparse solver. [Allowed]: InitializeStructure may be called with this structure (any after a cold
    Initialize, the last one after a warm one). [Str]: it has been told this structure. [Idle]: no values
    are waiting for a solve. [Fresh w new]: values written now are those a
    MultiSolve with this flag works with. [Uses w new v]: a MultiSolve with this flag works with the values v. [usable r]: after
    the answer r it can be asked again for the same matrix without the flag. *)
Section B.
Context {W : Type}.
Variables (E : env W) (f : fmt) (usable : status -> bool).
Variables (Allowed Str : nat -> nat -> CsrModel.arr -> CsrModel.arr -> W -> Prop) (Idle : W -> Prop) (Fresh : W -> bool -> Prop) (Uses : W -> bool -> list R -> Prop).
Record backend : Prop := {
  b_fmt : forall w, w_fmt E w = f;
  b_success : usable SUCCESS = true;
  b_fatal : usable FATAL_ERROR = false;
  b_cold : forall w w', w_init E false w = (true, w') -> forall d nz ia ja, Allowed d nz ia ja w';
  b_warm : forall d nz ia ja w w', Allowed d nz ia ja w \/ (Str d nz ia ja w /\ Idle w) -> w_init E true w = (true, w') -> Allowed d nz ia ja w';
  b_scinit : forall d nz ia ja w b w', Allowed d nz ia ja w -> w_scinit E w = (b, w') -> Allowed d nz ia ja w';
  b_struct : forall d nz ia ja w r w', Allowed d nz ia ja w -> w_struct E d nz ia ja w = (r, w') ->
      (r = SUCCESS /\ Str d nz ia ja w') \/ r = FATAL_ERROR;
  b_get : forall d nz ia ja w, Str d nz ia ja w -> length (w_get E nz w) = nz;
  b_fresh : forall d nz ia ja w, Str d nz ia ja w -> Fresh w true;
  b_put : forall d nz ia ja w v, Str d nz ia ja w -> length v = nz ->
      Str d nz ia ja (w_put E v w) /\ (forall new, Fresh w new -> Fresh (w_put E v w) new /\ Uses (w_put E v w) new v);
  b_solve : forall d nz ia ja w new v nrhs rhs chk n r rhs' w', Str d nz ia ja w -> Uses w new v -> length rhs = (nrhs * d)%nat ->
      w_solve E new ia ja nrhs rhs chk n w = (r, rhs', w') ->
      Str d nz ia ja w' /\ Idle w' /\
      (usable r = true -> Uses w' false v) /\
      (r = SUCCESS -> length rhs' = length rhs /\
          forall M, denotes f d ia ja v M -> forall k, (k < nrhs)%nat -> solves d M (slice d k rhs') (slice d k rhs)) /\
      (r = CALL_AGAIN -> rhs' = rhs /\ Fresh w' new);
  b_incq : forall d nz ia ja w b w', Str d nz ia ja w -> Idle w -> w_incq E w = (b, w') ->
      Str d nz ia ja w' /\ Idle w' /\ (forall v, Uses w false v -> Uses w' false v);
  b_incq_allowed : forall d nz ia ja w b w', Allowed d nz ia ja w -> w_incq E w = (b, w') -> Allowed d nz ia ja w';
  (* the scaling method does not touch the solver, and its factors are not zero *)
  b_scale : forall d nz ia ja w d' ir jc vals ok fac w', Str d nz ia ja w -> w_scale E d' ir jc vals w = (ok, fac, w') ->
      Str d nz ia ja w' /\ (ok = true -> length fac = d' /\ Forall (fun x => x <> 0) fac)
}.
End B.

(** ** Matrices that may be given to the solver *)
Definition wf_smat (f : fmt) (A : smat) : Prop :=
  m_tag A <> 0%nat /\ length (m_val A) = length (m_ir A) /\ in_range (m_dim A) (m_ir A) (m_jc A) /\
  match f with TripF => True
  | CsrF _ off => (off = 0%nat \/ off = 1%nat) /\ m_ir A <> [] /\ no_inner_gap (m_ir A) (m_jc A) end.
Definition same_struct (A B : smat) : Prop := m_dim A = m_dim B /\ m_ir A = m_ir B /\ m_jc A = m_jc B.

(** ** The user's view of the object: initialized? which matrix was given last? did the last solve end well? is scaling still to
    be switched on by IncreaseQuality? has it been since the last solve? *)
Record view := View { v_on : bool; v_last : option smat; v_good : bool; v_od : bool; v_pend : bool }.
Definition after_init (scaling od warm : bool) (r : option bool) (v : view) : view :=
  match r with
  | Some true => View true (if warm then v_last v else None) false (scaling && od) false
  | _ => View false None false false false
  end.
Definition after_solve (usable : status -> bool) (A : smat) (r : res) (v : view) : view :=
  match r with
  | Ret FATAL_ERROR _ | Throw | OutOfFuel => View false (Some A) false (v_od v) false
  | Ret r _ => View true (Some A) (usable r) (v_od v) false
  end.
Definition after_incq (v : view) : view :=
  if v_od v then View (v_on v) (v_last v) (v_good v) false true else v.
(** A may be given now: equal tags mean equal matrices (Ipopt's tags), and then the last solve must have ended well *)
Definition may_solve (f : fmt) (v : view) (A : smat) (rhsV : list (list R)) : Prop :=
  v_on v = true /\ wf_smat f A /\ Forall (fun b => length b = m_dim A) rhsV /\
  match v_last v with
  | None => True
  | Some B => same_struct A B /\ (m_tag A = m_tag B -> A = B /\ v_good v = true)
  end.

Section H.
Context {W : Type}.
Variables (E : env W) (f : fmt) (usable : status -> bool) (scaling : bool) (sort : list CsrModel.entry -> list CsrModel.entry).
(** the objects reachable by Initialize (cold or warm), MultiSolve and IncreaseQuality in any order; after a fatal error or an
    exception only a cold Initialize may follow *)
Inductive hist : view -> ts W -> Prop :=
| H_new w : hist (View false None false false false) (new_ts w)
| H_init v s od warm r s' : hist v s -> (warm = true -> v_on v = true) -> initialize E scaling od warm s = (r, s') -> hist (after_init scaling od warm r v) s'
| H_solve v s fuel A rhsV chk n r s' : hist v s -> may_solve f v A rhsV ->
    multi_solve E scaling sort fuel A rhsV chk n s = Some (r, s') -> hist (after_solve usable A r v) s'
| H_incq v s b s' : hist v s -> increase_quality E scaling s = (b, s') -> hist (after_incq v) s'.
End H.

(** ** The order of calls the sparse solver sees (newest first): structure first; values directly before every solve with a new
    matrix, and again after CALL_AGAIN; a solve without new values only after an answer that allows it *)
Fixpoint structure (es : list event) : option (nat * nat * CsrModel.arr * CsrModel.arr) :=
  match es with
  | [] => None
  | E_struct d nz ia ja SUCCESS :: _ => Some (d, nz, ia, ja)
  | E_struct _ _ _ _ _ :: _ => None
  | _ :: es => structure es
  end.
Definition directly_before (usable : status -> bool) (new : bool) (es : list event) : Prop :=
  match es with
  | E_put _ :: E_solve new' _ _ CALL_AGAIN :: _ => new' = new     (* called again: the same call *)
  | E_put _ :: _ => new = true
  | E_solve _ _ _ r :: _ => new = false /\ usable r = true
  | _ => False
  end.
Fixpoint protocol (usable : status -> bool) (es : list event) : Prop :=
  match es with
  | [] => True
  | E_struct _ _ _ _ _ :: es => protocol usable es
  | E_put v :: es => protocol usable es /\ exists d nz ia ja, structure es = Some (d, nz, ia, ja) /\ length v = nz
  | E_solve new ia ja r :: es => protocol usable es /\ directly_before usable new es /\
      exists d nz, structure es = Some (d, nz, ia, ja)
  end.
