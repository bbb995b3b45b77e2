(** Model of the restoration phase problem and of what is done around it:
    src/Algorithm/IpAugRestoSystemSolver.cpp (Solve), src/Algorithm/IpRestoIpoptNLP.cpp (functions and derivatives),
    src/Algorithm/IpRestoIterateInitializer.cpp (SetInitialIterates), src/Algorithm/IpRestoMinC_1Nrm.cpp (PerformRestoration).

    - Numbers are the reals; vectors, matrices and the augmented system are those of CQModel, PdModel, AugModel.
    - The caches of AugRestoSystemSolver are transparent (C03-C06 are about the cache; every result depends on nothing
      but what is compared). Output and timing are left out.
    - Trivial compound vectors (one component) are not distinguished from their component. *)
From Coq Require Import Reals List Arith Bool.
From Verif Require Import CQModel PdModel AugModel.
From Verif Require ConvModel.
Import ListNotations.
Open Scope R_scope.

(** x_space_ (IpRestoIpoptNLP.cpp:134-142): x, n_c, p_c, n_d, p_d *)
Record rv := RV { r_x : vec; r_nc : vec; r_pc : vec; r_nd : vec; r_pd : vec }.
(** jac_c_space_, jac_d_space_ (225-268): one row of blocks, the first a matrix, the others absent or factors of identity matrices *)
Record rjac := RJac { j_0 : mat; j_nc : option R; j_pc : option R; j_nd : option R; j_pd : option R }.
(** the (0,0) block of h_space_ (270-297), all others are zero: SumSymMatrix f0 * h + f1 * diag w, or a LowRankUpdateSymMatrix *)
Inductive rhess := HSum (f0 : R) (h : mat) (f1 : R) (w : vec) | HLow (h : mat).

(** CompoundMatrix, CompoundSymMatrix: products (C54) *)
Definition id_add (f : option R) (v y : vec) : vec := match f with Some a => axpy a v y | None => y end.
Definition rj_mul (J : rjac) (v : rv) : vec :=
  let y := mmul (j_0 J) 1 (r_x v) 0 [] in
  id_add (j_pd J) (r_pd v) (id_add (j_nd J) (r_nd v) (id_add (j_pc J) (r_pc v) (id_add (j_nc J) (r_nc v) y))).
Definition id_t (f : option R) (v : vec) (n : nat) : vec := match f with Some a => vmap (Rmult a) v | None => vset n 0 end.
Definition rj_tmul (nc nd : nat) (J : rjac) (y : vec) : rv :=
  RV (mtmul (j_0 J) 1 y 0 []) (id_t (j_nc J) y nc) (id_t (j_pc J) y nc) (id_t (j_nd J) y nd) (id_t (j_pd J) y nd).
Definition rh_mul (nc nd : nat) (H : rhess) (v : rv) : rv :=
  RV (match H with
      | HSum f0 h f1 w => axpy f1 (emul (r_x v) w) (mmul h f0 (r_x v) 0 [])
      | HLow h => mmul h 1 (r_x v) 0 []
      end) (vset nc 0) (vset nc 0) (vset nd 0) (vset nd 0).

(** * AugRestoSystemSolver *)
Record rarg := RArg {
  q_W : rhess; q_wf : R; q_Dx : option rv; q_dx : R; q_Ds : option vec; q_ds : R;
  q_Jc : rjac; q_Dc : option vec; q_dc : R; q_Jd : rjac; q_Dd : option vec; q_dd : R }.
Record rav := RAv { ra_x : rv; ra_s : vec; ra_c : vec; ra_d : vec }.
(** Sigma_tilde_*_inv 405-570: four times the same code; n is the dimension of the prototype *)
Definition sig_inv (sigma : option vec) (dx : R) (n : nat) : option vec :=
  match sigma with
  | Some v => Some (if Req_EM_T dx 0 then vmap (fun u => 1 / u) v else vmap (fun u => / (u + dx)) v)
  | None => if Req_EM_T dx 0 then None else Some (vset n (1 / dx))
  end.
(** Neg_Omega_c_plus_D_c 311-362 *)
Definition neg_omega_c (sn sp Dc : option vec) (proto : vec) : option vec :=
  match sn, sp, Dc with
  | None, None, None => None
  | _, _, _ =>
    let (f1, v1) := match sn with Some v => (-1, v) | None => (0, proto) end in
    let (f2, v2) := match sp with Some v => (-1, v) | None => (0, proto) end in
    let r := add_two f1 v1 f2 v2 0 proto in
    Some (match Dc with Some D => axpy 1 D r | None => r end)
  end.
(** IdentityMatrix::MultVector(alpha, x, beta = 1, y) *)
Definition idm (f : option R) (alpha : R) (x y : vec) : vec := match f with Some a => axpy (alpha * a) x y | None => y end.
(** Neg_Omega_d_plus_D_d 364-403: with D_d the result is D_d alone (395) *)
Definition neg_omega_d (pl : option R) (sn : option vec) (pu : option R) (sp Dd : option vec) (proto : vec) : option vec :=
  match sn, sp, Dd with
  | None, None, None => None
  | _, _, _ =>
    let r := vset (dim proto) 0 in
    let r := match sn with Some v => idm pl (-1) v r | None => r end in
    let r := match sp with Some v => idm pu 1 v r | None => r end in
    Some (match Dd with Some D => D | None => r end)
  end.
(** D_x_plus_wr_d 572-624 *)
Definition dx_plus (D : option vec) (f : R) (w : vec) : vec :=
  let (g, v) := match D with Some v => (1, v) | None => (0, w) end in add_two f w g v 0 w.
(** Rhs_cR 626-668, Rhs_dR 670-718 *)
Definition rhs_c (b : vec) (sn : option vec) (bn : vec) (sp : option vec) (bp : vec) : vec :=
  let r := match sn with Some v => axpy (-1) (emul v bn) b | None => b end in
  match sp with Some v => axpy 1 (emul v bp) r | None => r end.
Definition rhs_d (b : vec) (sn : option vec) (bn : vec) (pl : option R) (sp : option vec) (bp : vec) (pu : option R) : vec :=
  let r := match sn with Some v => idm pl (-1) (emul v bn) b | None => b end in
  match sp with Some v => idm pu (-1) (emul v bp) r | None => r end.
(** what is passed on: 167-258 *)
Definition sigmas (q : rarg) (b : rav) : option vec * option vec * option vec * option vec :=
  let s g := match q_Dx q with Some D => Some (g D) | None => None end in
  (sig_inv (s r_nc) (q_dx q) (dim (r_nc (ra_x b))), sig_inv (s r_pc) (q_dx q) (dim (r_pc (ra_x b))),
   sig_inv (s r_nd) (q_dx q) (dim (r_nd (ra_x b))), sig_inv (s r_pd) (q_dx q) (dim (r_pd (ra_x b)))).
Definition small_arg (q : rarg) (b : rav) : aarg :=
  let '(snc, spc, snd_, spd) := sigmas q b in
  let D0 := match q_Dx q with Some D => Some (r_x D) | None => None end in
  let '(h, f, D) := match q_W q with
                    | HSum f0 h f1 w => (h, f0 * q_wf q, Some (dx_plus D0 f1 w))
                    | HLow h => (h, q_wf q, D0)
                    end in
  AArg (Some h) f D (q_dx q) (q_Ds q) (q_ds q) (j_0 (q_Jc q)) (neg_omega_c snc spc (q_Dc q) (ra_c b)) (q_dc q)
       (j_0 (q_Jd q)) (neg_omega_d (j_nd (q_Jd q)) snd_ (j_pd (q_Jd q)) spd (q_Dd q) (ra_d b)) (q_dd q).
Definition small_rhs (q : rarg) (b : rav) : av :=
  let '(snc, spc, snd_, spd) := sigmas q b in
  AV (r_x (ra_x b)) (ra_s b) (rhs_c (ra_c b) snc (r_nc (ra_x b)) spc (r_pc (ra_x b)))
     (rhs_d (ra_d b) snd_ (r_nd (ra_x b)) (j_nd (q_Jd q)) spd (r_pd (ra_x b)) (j_pd (q_Jd q))).
(** 260-304 *)
Definition back (q : rarg) (b : rav) (a : av) : rav :=
  let '(snc, spc, snd_, spd) := sigmas q b in
  let bx := ra_x b in
  let nc := match snc with Some v => emul (add_two 1 (r_nc bx) (-1) (ac a) 0 (r_nc bx)) v | None => vset (dim (r_nc bx)) 0 end in
  let pc := match spc with Some v => emul (add_two 1 (r_pc bx) 1 (ac a) 0 (r_pc bx)) v | None => vset (dim (r_pc bx)) 0 end in
  let nd := match snd_ with Some v => emul (axpy 1 (r_nd bx) (idm (j_nd (q_Jd q)) (-1) (ad a) (vset (dim (r_nd bx)) 0))) v | None => vset (dim (r_nd bx)) 0 end in
  let pd := match spd with Some v => emul (axpy 1 (r_pd bx) (idm (j_pd (q_Jd q)) (-1) (ad a) (vset (dim (r_pd bx)) 0))) v | None => vset (dim (r_pd bx)) 0 end in
  RAv (RV (ax a) nc pc nd pd) (as_ a) (ac a) (ad a).
(** Solve 60-309; None: not successful, n and p parts of the solution are not written *)
Definition resto_solve {L} (asolve : L -> aarg -> av -> bool -> nat -> status * av * L) (l : L) (q : rarg) (b : rav) (chk : bool) (n : nat)
  : status * option rav * L :=
  let '(r, a, l) := asolve l (small_arg q b) (small_rhs q b) chk n in
  match r with SUCCESS => (r, Some (back q b a), l) | _ => (r, None, l) end.

(** * RestoIpoptNLP *)
Record resto := Resto { z_P : nlp; z_rho : R; z_eta : R; z_exp : R; z_ref : vec }.
Section NLP.
Variable Z : resto.
Notation P := (z_P Z).
(** Eta 799-804; pow for positive mu *)
Definition eta (mu : R) : R := z_eta Z * Rpower mu (z_exp Z).
(** 430-451: dr_x_, dr2_x_ *)
Definition dr_x : vec :=
  let d := vmap2 Rmax (vset (dim (z_ref Z)) 1) (z_ref Z) in
  let d := vmap2 Rmax d (vmap (Rmult (-1)) (z_ref Z)) in
  vmap Rinv d.
Definition dr2_x : vec := emul dr_x dr_x.
(** IpVector.hpp Sum *)
Definition vsum (v : vec) : R := fold_left Rplus v 0.
(** f 462-500: Sum of the compound vector (IpCompoundVector.cpp SumImpl) minus that of x *)
Definition resto_f (x : rv) (mu : R) : R :=
  let all := fold_left (fun s v => s + vsum v) [r_x x; r_nc x; r_pc x; r_nd x; r_pd x] 0 in
  let ret := z_rho Z * (all - vsum (r_x x)) in
  let n2 := nrm2 (emul (axpy (-1) (z_ref Z) (r_x x)) dr_x) in
  ret + eta mu / 2 * n2 * n2.
(** grad_f 502-523 *)
Definition resto_g (x : rv) (mu : R) : rv :=
  let c v := vset (dim v) (z_rho Z) in
  RV (vmap (Rmult (eta mu)) (emul (axpy (-1) (z_ref Z) (r_x x)) dr2_x)) (c (r_nc x)) (c (r_pc x)) (c (r_nd x)) (c (r_pd x)).
(** c 525-545, d 554-574 *)
Definition resto_c (x : rv) : vec := axpy (-1) (r_pc x) (axpy 1 (r_nc x) (fn_c P (r_x x))).
Definition resto_d (x : rv) : vec := axpy (-1) (r_pd x) (axpy 1 (r_nd x) (fn_d P (r_x x))).
(** jac_c 576-611, jac_d 613-647: identities have factor 1 unless set *)
Definition resto_Jc (x : rv) : rjac := RJac (fn_Jc P (r_x x)) (Some 1) (Some (-1)) None None.
Definition resto_Jd (x : rv) : rjac := RJac (fn_Jd P (r_x x)) None None (Some 1) (Some (-1)).
(** h 660-709 *)
Definition resto_h (x : rv) (of_ : R) (yc yd : vec) (mu : R) : rhess :=
  HSum 1 (fn_h P (r_x x) 0 yc yd) (of_ * eta mu) dr2_x.
(** uninitialized_h 711-730, exact Hessian; [W0] is the original one *)
Definition resto_h0 (W0 : mat) : rhess := HSum 1 W0 1 dr2_x.

(** * RestoIterateInitializer 45-221 *)
(** solve_quadratic 223-237 *)
Definition solve_quadratic (a b : vec) : vec := axpy 1 a (vmap sqrt (axpy 1 b (emul a a))).
Definition split (mu : R) (c : vec) : vec * vec :=
  let a := axpy (-/2) c (vset (dim c) (mu / (2 * z_rho Z))) in
  let b := vmap (Rmult (mu / (2 * z_rho Z))) c in
  let n := solve_quadratic a b in (n, axpy 1 n c).
Record rinit := RInit { ri_mu : R; ri_x : rv; ri_s : vec; ri_zL : rv; ri_zU : vec; ri_vL : vec; ri_vU : vec }.
(** [v]: current iterate of the original problem, [cmu] its barrier parameter *)
Definition resto_init (v : iv) (cmu : R) : rinit :=
  let c := fn_c P (vx v) in let dms := axpy (-1) (vs v) (fn_d P (vx v)) in
  let mu := Rmax (Rmax cmu (amax c)) (amax dms) in
  let '(nc, pc) := split mu c in
  let '(nd, pd) := split mu dms in
  let m z := vmap2 Rmin (vset (dim z) (z_rho Z)) z in
  let q n := vmap2 Rdiv (vset (dim n) mu) n in
  RInit mu (RV (vx v) nc pc nd pd) (vs v) (RV (m (vzL v)) (q nc) (q pc) (q nd) (q pd)) (m (vzU v)) (m (vvL v)) (m (vvU v)).
End NLP.

(** * MinC_1NrmRestorationPhase::PerformRestoration 108-436 *)
Import ConvModel.
Inductive pr_out := PR_true (trial : iv) | PR_false | PR_throw (e : exn).
(** curr: IpData().curr() afterwards *)
Record pr_res (L : Type) := PrRes { pr_o : pr_out; pr_curr : iv; pr_l : L }.
Arguments PrRes {L}. Arguments pr_o {L}. Arguments pr_curr {L}. Arguments pr_l {L}.
Section Perform.
Context {L : Type}.
Variable asolve : L -> aarg -> av -> bool -> nat -> PdModel.status * av * L.
Variable inertia : L -> bool.
Variables (P : nlp) (W0 : mat).
Variable viol : iv -> R.            (* unscaled_curr_nlp_constraint_violation(NORM_MAX) *)
Variable pinf : iv -> R.            (* curr_primal_infeasibility(NORM_MAX) *)
Variable slack : bd -> iv -> vec.   (* curr_slack_*, trial_slack_* *)
Record propts := PrO { po_tol : R; po_thr : R; po_reset : R; po_yreset : R; po_calc : bool; po_tau : R; po_mu : R }.
Variable o : propts.
(** ComputeBoundMultiplierStep 438-455 *)
Definition mult_step (z s s' : vec) : vec :=
  axpy (-1) z (vmap2 Rdiv (vmap (fun u => u + po_mu o) (emul (axpy (-1) s' s) z)) s).
(** IpData().SetTrialBoundMultipliersFromStep (IpIpoptData.cpp:220-244): curr + alpha * delta *)
Definition after_success (curr trial : iv) (x s : vec) (l : L) : iv * L :=
  let t := IV x s (vyc trial) (vyd trial) (vzL trial) (vzU trial) (vvL trial) (vvU trial) in
  let dz b z := mult_step z (slack b curr) (slack b t) in
  let d1 := dz XL (vzL curr) in let d2 := dz XU (vzU curr) in let d3 := dz SL (vvL curr) in let d4 := dz SU (vvU curr) in
  let alpha := Rmin (Rmin (Rmin (frac_to_bound (vzL curr) d1 (po_tau o)) (frac_to_bound (vzU curr) d2 (po_tau o)))
                          (frac_to_bound (vvL curr) d3 (po_tau o))) (frac_to_bound (vvU curr) d4 (po_tau o)) in
  let z1 := axpy alpha d1 (vzL curr) in let z2 := axpy alpha d2 (vzU curr) in
  let z3 := axpy alpha d3 (vvL curr) in let z4 := axpy alpha d4 (vvU curr) in
  let mx := Rmax (Rmax (Rmax (amax z1) (amax z2)) (amax z3)) (amax z4) in
  let t := if Rlt_dec (po_reset o) mx
           then IV x s (vyc trial) (vyd trial) (vset (dim z1) 1) (vset (dim z2) 1) (vset (dim z3) 1) (vset (dim z4) 1)
           else IV x s (vyc trial) (vyd trial) z1 z2 z3 z4 in
  least_square_mults asolve inertia P W0 (po_calc o) (po_yreset o) t l.
(** [st], [rc]: result of resto_alg_->Optimize and the current iterate of the restoration data, reduced to the parts
    that belong to the original problem (None: not valid). CopyTrialToCurrent inside least_square_mults is followed by
    AcceptTrialPoint in the caller and left out *)
Definition perform (square : bool) (st : sreturn) (rc : option iv) (curr trial : iv) (l : L) : pr_res L :=
  let c1 := match st with SUCCESS => curr | _ => match rc with Some v => v | None => curr end end in
  let throw e := PrRes (PR_throw e) c1 l in
  match st with
  | SUCCESS =>
    match rc with
    | None => PrRes PR_false curr l      (* never: a successful run has an iterate *)
    | Some v =>
      if square && (if Rle_dec (viol curr) (po_tol o) then true else false)
      then PrRes (PR_throw EX_FEASIBILITY_PROBLEM_SOLVED) (IV (vx v) (vs v) (vyc trial) (vyd trial) (vzL trial) (vzU trial) (vvL trial) (vvU trial)) l
      else let '(t, l) := after_success curr trial (vx v) (vs v) l in PrRes (PR_true t) curr l
    end
  | STOP_AT_ACCEPTABLE_POINT =>
    if square && (if Rlt_dec (viol c1) (po_tol o) then true else false) then throw EX_FEASIBILITY_PROBLEM_SOLVED
    else throw (if Rle_dec (pinf c1) (po_thr o) then EX_RESTO_FEASIBLE else EX_LOCALLY_INFEASIBLE)
  | STOP_AT_TINY_STEP => throw (if Rle_dec (pinf c1) (po_thr o) then EX_RESTO_FEASIBLE else EX_LOCALLY_INFEASIBLE)
  | MAXITER_EXCEEDED => throw EX_RESTO_MAXITER
  | CPUTIME_EXCEEDED => throw EX_RESTO_CPUTIME
  | WALLTIME_EXCEEDED => throw EX_RESTO_WALLTIME
  | LOCAL_INFEASIBILITY => throw EX_LOCALLY_INFEASIBLE
  | RESTORATION_FAILURE | ERROR_IN_STEP_COMPUTATION => throw EX_RESTO_FAILED
  | USER_REQUESTED_STOP => throw EX_RESTO_USER_STOP
  | _ => PrRes PR_false c1 l
  end.
End Perform.
