(** Model of the monotone barrier parameter update.
    /repo/src/Algorithm/IpMonotoneMuUpdate.cpp:95-225 (InitializeImpl,
    UpdateBarrierParameter, CalcNewMuAndTau).

    Numbers are binary64. [std::pow] is an arbitrary function (parameter [pw]).
    The barrier error is an arbitrary stream: [c_err c k] is the value of the
    k-th call of curr_barrier_error() in one update. Output is left out. *)
From Coq Require Import List Bool ZArith.
From Verif Require Import Num.
Import ListNotations.

(** Options read in InitializeImpl (101-108) *)
Record mopts := MOpts {
  mu_init : num; barrier_factor : num; lin_factor : num; power : num;
  fast : bool; tau_min : num; mu_target : num
}.

(** curr_mu, curr_tau, initialized_, first_iter_resto_ *)
Record mstate := MState { mu : num; tau : num; initialized : bool; first_resto : bool }.

(** InitializeImpl (110-124); [resto]: prefix == "resto." *)
Definition mu_initialize (o : mopts) (resto : bool) : mstate :=
  MState (mu_init o) (nmax (tau_min o) (nsub none (mu_init o))) false resto.

(** What one call of UpdateBarrierParameter sees: IpData().tol(), the absolute
    value of the scaled compl_inf_tol, the barrier errors, tiny_step_flag *)
Record call := Call { c_tol : num; c_ctol : num; c_err : nat -> num; c_tiny : bool }.

Section Update.
Variable pw : num -> num -> num.
Variable o : mopts.

(** CalcNewMuAndTau (207-224) *)
Definition new_mu (c : call) (m : num) : num :=
  nmax3 (nmin (nmul (lin_factor o) m) (pw m (power o))) (mu_target o)
        (ndiv (nmin (c_tol c) (c_ctol c)) (nadd (barrier_factor o) none)).
Definition new_tau (m : num) : num := nmax (tau_min o) (nsub none m).

(** How an update ends: normally, with the number of passes and of
    linesearch_->Reset() calls; by the exception TINY_STEP_DETECTED; or [Loop],
    the fuel is used up. *)
Inductive outcome :=
  | Return (s : mstate) (passes resets : nat)
  | TinyStep (s : mstate) (passes : nat)
  | Loop (s : mstate).

(** The loop (144-197). [err]: sub_problem_error, [k]: barrier errors read so
    far, [tiny], [done], [passes], [resets] as in the code. *)
Fixpoint update_loop (fuel : nat) (c : call) (s : mstate) (err kappa : num) (k : nat)
    (tiny done : bool) (passes resets : nat) : outcome :=
  if (nle err kappa || tiny) && negb done && negb (first_resto s) then
    match fuel with
    | O => Loop s
    | S f =>
        let m := new_mu c (mu s) in
        let changed := negb (neqb (mu s) m) in
        if negb changed && tiny then TinyStep s passes
        else
          let s1 := MState m (new_tau m) (initialized s) (first_resto s) in
          let '(err1, kappa1, k1, done1) :=
            if initialized s && negb (fast o) then (err, kappa, k, true)
            else if negb changed then (err, kappa, k, true)
            else let e := c_err c k in
                 let kap := nmul (barrier_factor o) m in
                 (e, kap, S k, ngt e kap) in
          update_loop f c s1 err1 kappa1 k1 false done1 (S passes)
            (if done1 && changed then S resets else resets)
    end
  else Return (MState (mu s) (tau s) true false) passes resets.

(** UpdateBarrierParameter (129-205) *)
Definition update (fuel : nat) (c : call) (s : mstate) : outcome :=
  update_loop fuel c s (c_err c 0) (nmul (barrier_factor o) (mu s)) 1 (c_tiny c) false 0 0.

(** A history of updates; None after an exception or when out of fuel. *)
Fixpoint history (fuel : nat) (cs : list call) (s : mstate) : list mstate * bool :=
  match cs with
  | [] => ([s], true)
  | c :: r =>
      match update fuel c s with
      | Return s1 _ _ => let '(l, ok) := history fuel r s1 in (s :: l, ok)
      | TinyStep s1 _ => ([s; s1], false)
      | Loop s1 => ([s; s1], false)
      end
  end.
End Update.
