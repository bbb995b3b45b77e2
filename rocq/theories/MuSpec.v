(** Vocabulary for C19. *)
From Coq Require Import List Bool ZArith Reals.
From Flocq Require Import Core.
From Verif Require Import Num MuModel.
Import ListNotations.
Open Scope R_scope.

(** The registered option ranges (29-93), with finite values. *)
Record valid_mopts (o : mopts) : Prop := {
  v_init : nfin (mu_init o) = true /\ 0 < key (mu_init o);
  v_factor : nfin (barrier_factor o) = true /\ 0 < key (barrier_factor o) /\ nfin (nadd (barrier_factor o) none) = true;
  v_lin : nfin (lin_factor o) = true /\ 0 < key (lin_factor o) < 1;
  v_tau : nfin (tau_min o) = true /\ 0 < key (tau_min o) < 1;
  v_target : nfin (mu_target o) = true /\ 0 <= key (mu_target o)
}.
(** tol > 0 finite; compl_inf_tol >= 0 (may have overflowed in the scaling) *)
Definition valid_call (c : call) : Prop :=
  nfin (c_tol c) = true /\ 0 < key (c_tol c) /\ nnan (c_ctol c) = false /\ 0 <= key (c_ctol c).

(** The lower limit max(mu_target, min(tol, compl_inf_tol)/(barrier_tol_factor+1)),
    as computed in binary64. *)
Definition limit (o : mopts) (c : call) : R :=
  Rmax (key (mu_target o)) (fl (Rmin (key (c_tol c)) (key (c_ctol c)) / fl (key (barrier_factor o) + 1))).

(** The state after an update *)
Definition state_of (r : outcome) : mstate :=
  match r with Return s _ _ => s | TinyStep s _ => s | Loop s => s end.
Definition passes_of (r : outcome) : nat :=
  match r with Return _ p _ => p | TinyStep _ p => p | Loop _ => 0 end.
Definition finished (r : outcome) : Prop := match r with Loop _ => False | _ => True end.

(** consecutive elements of a list are related *)
Fixpoint chain {A} (P : A -> A -> Prop) (l : list A) : Prop :=
  match l with
  | x :: ((y :: _) as r) => P x y /\ chain P r
  | _ => True
  end.

(** States of a history: mu is a finite non-negative number and tau belongs to
    it (holds after InitializeImpl and is preserved, see MuProps.history_good). *)
Definition good (o : mopts) (s : mstate) : Prop :=
  nfin (mu s) = true /\ 0 <= key (mu s) /\ tau s = new_tau o (mu s).
