(** Vocabulary for C16-C18. *)
From Coq Require Import List Bool ZArith Reals.
From Verif Require Import Num ConvModel.
Import ListNotations.

(** [x] is a number not larger than the number [y] (never true for NaN) *)
Definition leq (x y : num) : Prop := nnan x = false /\ nnan y = false /\ (key x <= key y)%R.

(** The measures satisfy the convergence tolerances. *)
Definition within_tolerances (o : copts) (e : measures) : Prop :=
  leq (m_overall e) (o_tol o) /\ leq (m_dual e) (o_dual_tol o) /\
  leq (m_constr e) (o_constr_tol o) /\ leq (m_compl e) (o_compl_tol o).
Definition converged_point (o : copts) (e : measures) : Prop :=
  within_tolerances o e \/ (m_novars e = true /\ leq (m_constr e) (o_constr_tol o)).

(** The measures satisfy the acceptable tolerances; [f0] is the objective value
    at the preceding check (-1e50 at the first). *)
Definition acceptable_point (o : copts) (f0 : num) (e : measures) : Prop :=
  leq (m_overall e) (o_acc_tol o) /\ leq (m_dual e) (o_acc_dual o) /\
  leq (m_constr e) (o_acc_constr o) /\ leq (m_compl e) (o_acc_compl o) /\
  leq (ndiv (nabs (nsub (m_f e) f0)) (nmax none (nabs (m_f e)))) (o_acc_obj o).

(** every element of [l], each with the objective of the one before it *)
Fixpoint with_previous (f0 : num) (l : list measures) : list (num * measures) :=
  match l with [] => [] | e :: r => (f0, e) :: with_previous (m_f e) r end.

(** The checks made in the main loop of a run that did not fail in the
    initialization, in order. *)
Definition checks {S} (res : run_result S) (e0 : measures) (ps : list pass) : list measures :=
  firstn (Datatypes.S (rr_own res)) (e0 :: map p_check ps).

(** The last [k] checks were acceptable. *)
Definition last_acceptable (o : copts) (k : Z) (l : list measures) : Prop :=
  exists l1 l2, with_previous m1e50 l = l1 ++ l2 /\ Z.of_nat (length l2) = k /\
    Forall (fun p => acceptable_point o (fst p) (snd p)) l2.

(** The environment provides more than [n] passes, also for each restoration
    phase. *)
Definition long_env (n : Z) (ps : list pass) : Prop :=
  (n < Z.of_nat (length ps))%Z /\
  forall p r, In p ps -> p_ls p = LsResto r -> (n < Z.of_nat (length (re_passes r)))%Z.
