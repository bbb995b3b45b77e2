(** Specification vocabulary for the inertia correction (C14, C15): which
    histories of calls are considered, and what the options mean. *)
From Coq Require Import List Bool ZArith Reals.
From Verif Require Import Num PerturbModel.
Import ListNotations.

(** The documented option ranges
    (IpPDPerturbationHandler.cpp:24-101, RegisterOptions), finite values. *)
Record valid_opts (o : popts) : Prop := {
  vo_max : nfin (o_max o) = true /\ (0 < key (o_max o))%R;
  vo_min : nfin (o_min o) = true /\ (0 <= key (o_min o))%R;
  vo_first : nfin (o_first o) = true /\ (1 < key (o_first o))%R;
  vo_inc : nfin (o_inc o) = true /\ (1 < key (o_inc o))%R;
  vo_dec : nfin (o_dec o) = true /\ (0 < key (o_dec o) < 1)%R;
  vo_init : nfin (o_init o) = true /\ (0 < key (o_init o))%R
}.

(** Histories in which the caller follows the protocol: a matrix starts with
    ConsiderNewSystem; perturbation requests follow while all calls for this
    matrix succeed. [cds] is the set of values delta_cd() can take.

    [idle o h]: the handler is in state [h] between two matrices.
    [live o cd h tr]: a matrix is being corrected, delta_cd() is [cd], and [tr]
    lists the perturbations handed out for it so far, latest first. *)
Inductive idle (o : popts) (cds : num -> Prop) : handler -> Prop :=
| idle_init : idle o cds (init_handler o)
| idle_done cd h tr : live o cds cd h tr -> idle o cds h
| idle_failed cd h v tr c h1 v1 :
    live o cds cd h (v :: tr) -> c <> New -> do_call o cd c h v = (false, h1, v1) -> idle o cds h1
| idle_new_failed cd h v h1 v1 :
    idle o cds h -> cds cd -> consider_new o cd h v = (false, h1, v1) -> idle o cds h1
with live (o : popts) (cds : num -> Prop) : num -> handler -> list deltas -> Prop :=
| live_new cd h v h1 v1 :
    idle o cds h -> cds cd -> consider_new o cd h v = (true, h1, v1) -> live o cds cd h1 [v1]
| live_retry cd h v tr c h1 v1 :
    live o cds cd h (v :: tr) -> c <> New -> do_call o cd c h v = (true, h1, v1) ->
    live o cds cd h1 (v1 :: v :: tr).

Scheme idle_mut := Induction for idle Sort Prop
  with live_mut := Induction for live Sort Prop.
Combined Scheme history_ind from idle_mut, live_mut.

(** delta_cd() is finite and not negative / positive *)
Definition cd_nonneg (cd : num) : Prop := nfin cd = true /\ (0 <= key cd)%R.
Definition cd_pos (cd : num) : Prop := nfin cd = true /\ (0 < key cd)%R.

(** The perturbations are well defined, equal for x and s and in [0, max];
    those for c and d are equal, and either 0 or delta_cd(). *)
Definition in_range (o : popts) (cd : num) (v : deltas) : Prop :=
  exists x c, dx v = Some x /\ ds v = Some x /\ dc v = Some c /\ dd v = Some c /\
    nfin x = true /\ (0 <= key x <= key (o_max o))%R /\ (c = nzero \/ c = cd).

(** each perturbation differs from the one handed out before *)
Fixpoint all_changed (tr : list deltas) : Prop :=
  match tr with
  | v :: ((w :: _) as r) => v <> w /\ all_changed r
  | _ => True
  end.

(** Options for which every perturbation is at least 2^-1022 (no subnormal
    numbers), and options that at least double the perturbation. *)
Definition normal_opts (o : popts) : Prop :=
  (Flocq.Core.Raux.bpow Flocq.Core.Zaux.radix2 (-1022) <= key (o_min o))%R /\
  (Flocq.Core.Raux.bpow Flocq.Core.Zaux.radix2 (-1022) <= key (o_init o))%R.
Definition doubling_opts (o : popts) : Prop := (2 <= key (o_first o))%R /\ (2 <= key (o_inc o))%R.

(** ** Runs for C15
    A run executes a list of calls, each with its value of delta_cd(). Requests
    for a perturbation are ignored unless a matrix is being corrected.
    [r_last] is the perturbation handed out last, [r_obs] counts the calls
    ConsiderNewSystem and PerturbForWrongInertia made while the perturbation
    handed out last was not zero: each of them is an observation that a
    perturbed matrix was not singular. *)
Record rstate := RState { r_h : handler; r_live : bool; r_last : deltas; r_obs : nat }.
Definition zero_deltas : deltas := Deltas (Some nzero) (Some nzero) (Some nzero) (Some nzero).
Definition r_init (o : popts) : rstate := RState (init_handler o) false zero_deltas 0.

Definition nonzero (v : deltas) : bool := negb (is_zero_var (dx v)) || negb (is_zero_var (dc v)).

Definition observe (c : call) (s : rstate) : nat :=
  match c with
  | Singular => r_obs s
  | _ => if nonzero (r_last s) then S (r_obs s) else r_obs s
  end.

Definition r_step (o : popts) (s : rstate) (cc : call * num) : rstate :=
  let '(c, cd) := cc in
  match c, r_live s with
  | Singular, false | Inertia, false => s
  | _, _ =>
      let '(r, h1, v1) := do_call o cd c (r_h s) (r_last s) in
      RState h1 r (if r then v1 else r_last s) (observe c s)
  end.
Definition r_run (o : popts) (cs : list (call * num)) : rstate := fold_left (r_step o) cs (r_init o).
