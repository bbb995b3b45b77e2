(** Specification of the adaptive barrier update: histories of calls and what a user expects
    of the barrier parameter, the mode and the points accepted in free mode. *)
From Coq Require Import Reals List Bool Arith.
From Verif Require Import AmuModel.
Import ListNotations.
Open Scope R_scope.
Set Implicit Arguments.

Section Spec.
Variable pt : Type.
Variable pw : R -> R -> R.
Variable q : cq pt.
Variable o : opts.

(** One call that returned: what it saw, what it returned, the state after it (of which the
    properties read the barrier parameter, tau, the mode and the current iterate) and what it
    told the line search. *)
Record step := Step { t_call : call pt; t_before : st pt; t_ret : bool; t_after : st pt; t_ev : list (event pt) }.

(** [hist p steps s]: the steps (first one first) are what happened since Initialize, called
    when the iterate was [p]; [s] is the state now. *)
Inductive hist (p : pt) : list step -> st pt -> Prop :=
  | hist_nil : hist p [] (initialize o p)
  | hist_step l s c b s' ev :
      hist p l s -> update pw q o c s = Ret b s' ev ->
      hist p (l ++ [Step c s b s' ev]) s'.

(** The problem has bounds / has no bounds. *)
Definition bounded : Prop := forall x, q_nbounds q x <> 0%nat.
Definition unbounded : Prop := forall x, q_nbounds q x = 0%nat.

(** The smallest barrier parameter asked for: the user's mu_min; or the default (100 times it
    in the restoration phase), but at most half of the tolerance of every call so far. *)
Definition min_mu (calls : list (call pt)) : R :=
  if o_mumin_user o then o_mumin o
  else fold_left (fun m c => Rmin m (/ 2 * Rmin (c_tol c) (c_ctol c))) calls
                 (if o_resto o then 100 * o_mumin o else o_mumin o).
(** The largest: the user's mu_max, or mu_max_fact times the average complementarity at the
    first call. *)
Definition max_mu (calls : list (call pt)) (m : R) : Prop :=
  match o_mumax o with
  | Some v => m = v
  | None => match calls with [] => False | c :: _ => m = o_mumaxfact o * q_avrg q (c_pt c) end
  end.
(** The smallest value a reduction in fixed mode may reach. *)
Definition floor_mu (c : call pt) : R := Rmin (c_ctol c) (c_tol c) / (o_btol o + 1).

(** The points accepted in free mode, oldest first: the iterates of the calls after which the
    mode is free. *)
Definition accepted (l : list step) : list pt :=
  map (fun t => c_pt (t_call t)) (filter (fun t => s_free (t_after t)) l).

(** Enough progress at [x] over the points accepted before ([old], oldest first). *)
Definition margin (x : pt) : R := o_marginfact o * Rmin (o_maxmargin o) (q_nlp q x).
Definition kkt_progress (old : list pt) (x : pt) : Prop :=
  (length old < o_rediters o)%nat \/
  exists j y, nth_error old j = Some y /\ (length old - o_rediters o <= j)%nat /\
              q_kkt q x <= o_redfact o * q_kkt q y.
Definition filter_progress (old : list pt) (x : pt) : Prop :=
  forall y, In y old -> q_f q x + margin x <= q_f q y \/ q_theta q x + margin x <= q_theta q y.
Definition progress (old : list pt) (x : pt) : Prop :=
  match o_glob o with
  | KKT_ERROR => kkt_progress old x
  | FILTER_OBJ_CONSTR => filter_progress old x
  | NEVER_MONOTONE_MODE => True
  end.

(** The options as the option registry restricts them, as far as they are needed. *)
Record good_opts : Prop := {
  go_min : 0 < o_mumin o;
  go_max : forall v, o_mumax o = Some v -> 0 < v;
  go_fact : 0 < o_mumaxfact o;
  go_lin : 0 < o_lin o < 1;
  go_btol : 0 < o_btol o;
  go_safe : 0 <= o_safe o;
  go_tau : 0 < o_taumin o < 1;
  go_pow : forall m, 0 < m -> 0 < pw m (o_pow o)
}.
Definition good_call (c : call pt) : Prop := 0 < c_tol c /\ 0 < c_ctol c.

End Spec.
Arguments Step {pt}. Arguments t_call {pt}. Arguments t_before {pt}. Arguments t_ret {pt}.
Arguments t_after {pt}. Arguments t_ev {pt}. Arguments accepted {pt}.

(** Golden section: [f] decreases strictly up to [m] and increases strictly from [m] on, on
    the interval from [lo] to [up]. *)
Definition unimodal (f : R -> R) (lo up m : R) : Prop :=
  lo <= m <= up /\
  (forall x y, lo <= x -> x < y -> y <= m -> f y < f x) /\
  (forall x y, m <= x -> x < y -> y <= up -> f x < f y).
