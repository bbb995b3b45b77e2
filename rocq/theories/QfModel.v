(** Model of src/Algorithm/IpProbingMuOracle.cpp (CalculateMu, CalculateAffineMu) and of
    src/Algorithm/IpQualityFunctionMuOracle.cpp (CalculateMu, CalculateQualityFunction): which linear systems
    they solve, and what they compute from the steps. The search over sigma is in AmuModel (golden, qf_sigma).

    Numbers are the reals: rounding is not modelled. Vector operations are those of CQModel and PdModel.
    [std::pow(x, 2)] and [std::pow(x, 3)] are powers with integer exponents. Timing and output are left out;
    count_qf_evals_ is not modelled (it is only printed), nor the trace compiled with TRACEQUALITYFUNCTION. *)
From Coq Require Import Reals List Arith Bool.
From Verif Require Import CQModel PdModel.
From Verif Require AmuModel.
Import ListNotations.
Open Scope R_scope.

(** What the oracles ask IpCq() and IpData() for: curr_grad_lag_x, curr_grad_lag_s, curr_c, curr_d_minus_s,
    curr_compl_x_L .. curr_compl_s_U, curr_slack_x_L .. curr_slack_s_U, z_L .. v_U, curr_avrg_compl,
    grad_kappa_times_damping_x, grad_kappa_times_damping_s, curr_tau *)
Record oin := Oin { i_gx : vec; i_gs : vec; i_c : vec; i_dms : vec; i_cmpl : bd -> vec; i_sl : bd -> vec; i_mul : bd -> vec;
                    i_avrg : R; i_kx : vec; i_ks : vec; i_tau : R }.
(** the component of a step that belongs to a kind of bound: of the multiplier, of the variable *)
Definition zpart (b : bd) (v : iv) : vec := match b with XL => vzL v | XU => vzU v | SL => vvL v | SU => vvU v end.
Definition xpart (b : bd) (v : iv) : vec := match b with XL | XU => vx v | SL | SU => vs v end.
Definition sgnb (b : bd) : R := match b with XL | SL => 1 | XU | SU => -1 end.

Section Q.
Variable P : nlp.
Variable i : oin.

(** IpProbingMuOracle.cpp 61-69, IpQualityFunctionMuOracle.cpp 190-198 *)
Definition rhs_aff : iv := IV (i_gx i) (i_gs i) (i_c i) (i_dms i) (i_cmpl i XL) (i_cmpl i XU) (i_cmpl i SL) (i_cmpl i SU).
(** IpQualityFunctionMuOracle.cpp 228-238; the vectors that are overwritten have the dimensions of the iterate *)
Definition rhs_cen : iv :=
  let z b := vset (dim (i_mul i b)) (i_avrg i) in
  IV (add_one (- i_avrg i) (i_kx i) 0 (i_kx i)) (add_one (- i_avrg i) (i_ks i) 0 (i_ks i))
     (vset (dim (i_c i)) 0) (vset (dim (i_dms i)) 0) (z XL) (z XU) (z SL) (z SU).

(** IpCq().primal_frac_to_the_bound(tau, x, s): C60; IpIpoptCalculatedQuantities.cpp 3357-3389 *)
Definition primal_frac (tau : R) (dx ds : vec) : R :=
  Rmin (calc_frac (i_sl i XL) (pxL P) (i_sl i XU) (pxU P) dx tau) (calc_frac (i_sl i SL) (pdL P) (i_sl i SU) (pdU P) ds tau).
(** IpCq().uncached_slack_frac_to_the_bound (3472-3494), uncached_dual_frac_to_the_bound (3400-3424),
    dual_frac_to_the_bound (3426-3455) *)
Definition frac4 (w : bd -> vec) (d : bd -> vec) (tau : R) : R :=
  Rmin (Rmin (Rmin (frac_to_bound (w XL) (d XL) tau) (frac_to_bound (w XU) (d XU) tau)) (frac_to_bound (w SL) (d SL) tau))
       (frac_to_bound (w SU) (d SU) tau).

(** * ProbingMuOracle *)
(** CalculateAffineMu (149-253): what one kind of bounds adds to [sum] *)
Definition aff_part (ap ad : R) (step : iv) (b : bd) : R :=
  if Nat.ltb 0 (dim (i_sl i b)) then
    dot (ptmul (pos P b) (sgnb b * ap) (xpart b step) 1 (i_sl i b)) (axpy ad (zpart b step) (i_mul i b))
  else 0.
Definition ncomp : nat := (dim (i_sl i XL) + dim (i_sl i XU) + dim (i_sl i SL) + dim (i_sl i SU))%nat.
Definition affine_mu (ap ad : R) (step : iv) : R :=
  (0 + aff_part ap ad step XL + aff_part ap ad step XU + aff_part ap ad step SL + aff_part ap ad step SU) / INR ncomp.

(** CalculateMu after the linear system (95-145): new_mu *)
Definition probing_mu (sigma_max mu_min mu_max : R) (step : iv) : R :=
  let ap := primal_frac 1 (vx step) (vs step) in
  let ad := frac4 (i_mul i) (fun b => zpart b step) 1 in
  let mu_aff := affine_mu ap ad step in
  let mu_curr := i_avrg i in
  let sigma := (mu_aff / mu_curr) ^ 3 in
  let sigma := Rmin sigma sigma_max in
  let mu := sigma * mu_curr in
  Rmax (Rmin mu mu_max) mu_min.
(** CalculateMu (47-147). [sv n alpha rhs]: what the n-th call pd_solver_->Solve(alpha, 0, rhs, step, true) leaves in
    [step]; None: it returned false. The result: delta_aff and new_mu; None: return false. *)
Definition probing (sv : nat -> R -> iv -> option iv) (sigma_max mu_min mu_max : R) : option (iv * R) :=
  match sv 0%nat (-1) rhs_aff with
  | None => None
  | Some step => Some (step, probing_mu sigma_max mu_min mu_max step)
  end.

(** * QualityFunctionMuOracle *)
(** 296-315: the steps of the slacks *)
Definition slack_step (b : bd) (v : iv) : vec := ptmul (pos P b) (sgnb b) (xpart b v) 0 (zpart b v).

(** CalculateQualityFunction (494-666) *)
Definition qf_norm_dual (k : AmuModel.qnorm) (ad : R) (n_dual : nat) : R :=
  match k with
  | AmuModel.NM_1 => (1 - ad) * (asum (i_gx i) + asum (i_gs i)) / INR n_dual
  | AmuModel.NM_2SQ => (1 - ad) ^ 2 * (nrm2 (i_gx i) ^ 2 + nrm2 (i_gs i) ^ 2) / INR n_dual
  | AmuModel.NM_MAX => (1 - ad) * Rmax (amax (i_gx i)) (amax (i_gs i))
  | AmuModel.NM_2 => (1 - ad) * sqrt (nrm2 (i_gx i) ^ 2 + nrm2 (i_gs i) ^ 2) / sqrt (INR n_dual)
  end.
Definition qf_norm_primal (k : AmuModel.qnorm) (ap : R) (n_pri : nat) : R :=
  match k with
  | AmuModel.NM_1 => let r := (1 - ap) * (asum (i_c i) + asum (i_dms i)) in if Nat.ltb 0 n_pri then r / INR n_pri else r
  | AmuModel.NM_2SQ => let r := (1 - ap) ^ 2 * (nrm2 (i_c i) ^ 2 + nrm2 (i_dms i) ^ 2) in if Nat.ltb 0 n_pri then r / INR n_pri else r
  | AmuModel.NM_MAX => (1 - ap) * Rmax (amax (i_c i)) (amax (i_dms i))
  | AmuModel.NM_2 => let r := (1 - ap) * sqrt (nrm2 (i_c i) ^ 2 + nrm2 (i_dms i) ^ 2) in if Nat.ltb 0 n_pri then r / sqrt (INR n_pri) else r
  end.
Definition qf_norm_compl (k : AmuModel.qnorm) (c : bd -> vec) (n_comp : nat) : R :=
  match k with
  | AmuModel.NM_1 => (asum (c XL) + asum (c XU) + asum (c SL) + asum (c SU)) / INR n_comp
  | AmuModel.NM_2SQ => (nrm2 (c XL) ^ 2 + nrm2 (c XU) ^ 2 + nrm2 (c SL) ^ 2 + nrm2 (c SU) ^ 2) / INR n_comp
  | AmuModel.NM_MAX => Rmax (Rmax (Rmax (amax (c XL)) (amax (c XU))) (amax (c SL))) (amax (c SU))
  | AmuModel.NM_2 => sqrt (nrm2 (c XL) ^ 2 + nrm2 (c XU) ^ 2 + nrm2 (c SL) ^ 2 + nrm2 (c SU) ^ 2) / sqrt (INR n_comp)
  end.
(** n_dual_, n_pri_, n_comp_ (253-259): set once per InitializeImpl; the dimensions do not change *)
Definition n_dual : nat := (dim (i_gx i) + dim (i_gs i))%nat.
Definition n_pri : nat := (dim (i_c i) + dim (i_dms i))%nat.
Definition n_comp : nat := (dim (i_mul i XL) + dim (i_mul i XU) + dim (i_mul i SL) + dim (i_mul i SU))%nat.
(** 518-531 *)
Definition qf_step (f : bd -> iv -> vec) (aff cen : iv) (sigma : R) (b : bd) : vec := add_two 1 (f b aff) sigma (f b cen) 0 (f b aff).
(** 533-541: alpha_primal, alpha_dual *)
Definition qf_alpha_primal (aff cen : iv) (sigma : R) : R := frac4 (i_sl i) (qf_step slack_step aff cen sigma) (i_tau i).
Definition qf_alpha_dual (aff cen : iv) (sigma : R) : R := frac4 (i_mul i) (qf_step zpart aff cen sigma) (i_tau i).
(** 543-563 *)
Definition qf_compl (aff cen : iv) (sigma : R) (b : bd) : vec :=
  emul (add_two 1 (i_sl i b) (qf_alpha_primal aff cen sigma) (qf_step slack_step aff cen sigma b) 0 (i_sl i b))
       (add_two 1 (i_mul i b) (qf_alpha_dual aff cen sigma) (qf_step zpart aff cen sigma b) 0 (i_mul i b)).
Definition qf_value (k : AmuModel.qnorm) (ce : AmuModel.qcent) (bal : bool) (aff cen : iv) (sigma : R) : R :=
  let c := qf_compl aff cen sigma in
  let dual_inf := qf_norm_dual k (qf_alpha_dual aff cen sigma) n_dual in
  let primal_inf := qf_norm_primal k (qf_alpha_primal aff cen sigma) n_pri in
  let compl_inf := qf_norm_compl k c n_comp in
  let q := dual_inf + primal_inf + compl_inf in
  let xi := match ce with AmuModel.CEN_NONE => 0 | _ => calc_centrality (c XL) (c XU) (c SL) (c SU) end in
  let q := match ce with
           | AmuModel.CEN_NONE => q
           | AmuModel.CEN_LOG => q - compl_inf * ln xi
           | AmuModel.CEN_RECIPROCAL => q + compl_inf / xi
           | AmuModel.CEN_CUBED_RECIPROCAL => q + compl_inf / xi ^ 3
           end in
  if bal then q + (Rmax 0 (Rmax dual_inf primal_inf - compl_inf)) ^ 3 else q.

(** 476: step->AddTwoVectors(sigma, cen, 1.0, aff, 0.0) *)
Definition combine (sigma : R) (aff cen : iv) : iv := ivmap2 (fun c a => add_two sigma c 1 a 0 a) cen aff.
(** CalculateMu (150-486): delta_aff, delta and new_mu; None: return false *)
Definition quality (sv : nat -> R -> iv -> option iv) (k : AmuModel.qnorm) (ce : AmuModel.qcent) (bal : bool)
    (max_steps : nat) (sigma_min sigma_max stol qtol mu_min mu_max : R) : option (iv * iv * R) :=
  match sv 0%nat (-1) rhs_aff with
  | None => None
  | Some aff =>
      match sv 1%nat 1 rhs_cen with
      | None => None
      | Some cen =>
          let sigma := fst (AmuModel.qf_sigma (qf_value k ce bal aff cen) max_steps sigma_min sigma_max stol qtol mu_min mu_max (i_avrg i)) in
          Some (aff, combine sigma aff cen, sigma * i_avrg i)
      end
  end.
End Q.
