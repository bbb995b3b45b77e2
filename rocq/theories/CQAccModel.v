(** Model of the part of IpoptAlgorithm::AcceptTrialPoint (src/Algorithm/IpIpoptAlg.cpp 652-712)
    that moves the bounds when slacks were corrected. Output is not modelled. *)
From Coq Require Import Reals List Arith Bool ZArith.
From Verif Require Import CQModel.
Import ListNotations.
Open Scope R_scope.

(** IpOrigIpoptNLP.cpp 991-1002 (AdjustVariableBounds): the new vectors replace the old ones *)
Definition put_bnd (B : bd -> vec) : M unit := fun s =>
  (tt, St (store s) (curr s) (trial s) (delta s) (mu s) B (nca s) (vca s) (mca s) (pca s) (damp s) (nadj s)).
(** 686-700: the positions of the bound in the trial point, minus or plus the slack *)
Definition moved (P : nlp) (b : bd) (x slack : vec) : vec :=
  match b with
  | XL | SL => vmap2 (fun a c => a + -1 * c) (ptmul (pos P b) 1 x 0 []) slack
  | XU | SU => vmap2 (fun a c => a + 1 * c) (ptmul (pos P b) 1 x 0 []) slack
  end.
(** 664-712 *)
Definition adjust_bounds (P : nlp) (o : opts) : M unit :=
  do n <- adjusted_trial_slacks;
  if Z.ltb 0 n then
    do u <- reset_adjusted;
    do tx <- tg true i_x; do x <- rd tx; do ts <- tg true i_s; do s <- rd ts;
    do t1 <- cq_slack P o true XL; do t2 <- cq_slack P o true XU; do t3 <- cq_slack P o true SL; do t4 <- cq_slack P o true SU;
    do a1 <- rd t1; do a2 <- rd t2; do a3 <- rd t3; do a4 <- rd t4;
    put_bnd (fun b => match b with XL => moved P XL x a1 | XU => moved P XU x a2 | SL => moved P SL s a3 | SU => moved P SU s a4 end)
  else ret tt.
