(** Model of src/Algorithm/IpPDFullSpaceSolver.cpp (Solve, SolveOnce, ComputeResiduals,
    ComputeResidualRatio) and src/Algorithm/IpPDSearchDirCalc.cpp (ComputeSearchDirection).

    - Numbers are the reals: rounding is not modelled. Vectors and matrices are those of CQModel
      (what the classes compute is C20, C23, C25, C54).
    - The linear solver behind the augmented system and the perturbation handler are arbitrary
      state machines: [augops] and [hops] below. Every theorem holds for each of them, so also
      for a solver that returns wrong solutions, and for the handler of C14 and C15.
    - The thirteen objects SolveOnce looks at to see whether the matrix is the one of the last
      call are one key [y_id] (their tags, C03-C06).
    - Output, timing and the letters appended to the info string are left out. [p_ev] is a ghost
      variable: the events so far, latest first. *)
From Coq Require Import Reals List Arith Bool.
From Verif Require Import CQModel.
Import ListNotations.
Open Scope R_scope.

(** IpIteratesVector.hpp: the eight parts *)
Record iv := IV { vx : vec; vs : vec; vyc : vec; vyd : vec; vzL : vec; vzU : vec; vvL : vec; vvU : vec }.
Definition ivmap2 (f : vec -> vec -> vec) (a b : iv) : iv :=
  IV (f (vx a) (vx b)) (f (vs a) (vs b)) (f (vyc a) (vyc b)) (f (vyd a) (vyd b))
     (f (vzL a) (vzL b)) (f (vzU a) (vzU b)) (f (vvL a) (vvL b)) (f (vvU a) (vvU b)).
Definition ivmap (f : vec -> vec) (a : iv) : iv := ivmap2 (fun v _ => f v) a a.
(** IpVector.hpp: y = a * v1 + b * v2 + c * y *)
Definition add_two (a : R) (v1 : vec) (b : R) (v2 : vec) (c : R) (y : vec) : vec :=
  mk (dim y) (fun i => a * el v1 i + b * el v2 i + c * el y i).
(** AddOneVector (IpVector.hpp:794-801), Scal, Axpy, ElementWiseMultiply *)
Definition add_one (a : R) (v : vec) (c : R) (y : vec) : vec := add_two a v 0 v c y.
Definition axpy (a : R) (x y : vec) : vec := vmap2 (fun u v => u + a * v) y x.
Definition emul (y x : vec) : vec := vmap2 Rmult y x.
(** IpCompoundVector.cpp AmaxImpl *)
Definition iv_amax (a : iv) : R :=
  fold_left (fun m v => Rmax m (amax v)) [vx a; vs a; vyc a; vyd a; vzL a; vzU a; vvL a; vvU a] 0.

(** the matrix data Solve reads from IpData, IpCq and IpNLP (170-191) *)
Record psys := PSys {
  y_id : list nat;
  y_W : mat; y_Jc : mat; y_Jd : mat;
  y_pxL : list nat; y_pxU : list nat; y_pdL : list nat; y_pdU : list nat;
  y_zL : vec; y_zU : vec; y_vL : vec; y_vU : vec;
  y_sxL : vec; y_sxU : vec; y_ssL : vec; y_ssU : vec;
  y_sigx : vec; y_sigs : vec
}.
Record deltas := Dl { d_x : R; d_s : R; d_c : R; d_d : R }.
(** IpSymLinearSolver.hpp:19-33 *)
Inductive status := SUCCESS | SINGULAR | WRONG_INERTIA | CALL_AGAIN | FATAL_ERROR.
(** right hand side and solution of the augmented system *)
Record av := AV { ax : vec; as_ : vec; ac : vec; ad : vec }.

(** IpPDPerturbationHandler.hpp; None: the call returned false. ConsiderNewSystem's return value is not looked at. *)
Record hops (H : Type) := HOps {
  h_cur : H -> deltas;
  h_new : H -> deltas * H;
  h_sing : H -> option deltas * H;
  h_inertia : H -> option deltas * H
}.
(** IpAugSystemSolver.hpp: Solve(system, deltas, rhs, check_NegEVals, numberOfNegEVals), NumberOfNegEVals, IncreaseQuality *)
Record augops (A : Type) := AOps {
  a_solve : A -> psys -> deltas -> av -> bool -> nat -> status * av * A;
  a_neg : A -> nat;
  a_incr : A -> bool * A
}.
Arguments h_cur {H}. Arguments h_new {H}. Arguments h_sing {H}. Arguments h_inertia {H}.
Arguments a_solve {A}. Arguments a_neg {A}. Arguments a_incr {A}.

(** options of PDFullSpaceSolver (104-115) *)
Record popts := POp {
  min_ref : nat; max_ref : nat;
  rr_max : R; rr_sing : R; rr_impr : R;
  curv_tol : R; curv_reg : bool
}.

(** ghost events *)
Inductive event :=
| E_once (id : list nat) (refinement : bool)                        (* SolveOnce is called *)
| E_aug (id : list nat) (d : deltas) (chk : bool) (r : status)      (* the linear solver is called and answers r *)
| E_fail (id : list nat)                                            (* SolveOnce returns false *)
| E_quality (b : bool)                                              (* the solver is asked to improve its quality *)
| E_singular.                                                       (* Solve pretends that the system is singular *)

Record pst (H A : Type) := PSt {
  p_h : H; p_a : A;
  p_impr : bool;                    (* augsys_improved_ *)
  p_cache : option (list nat);      (* dummy_cache_ (size 1) *)
  p_ev : list event
}.
Arguments PSt {H A}. Arguments p_h {H A}. Arguments p_a {H A}. Arguments p_impr {H A}. Arguments p_cache {H A}. Arguments p_ev {H A}.

Section Pd.
Context {H A : Type}.
Variables (ho : hops H) (ao : augops A) (o : popts).
Notation st := (pst H A).
Definition log (s : st) (e : event) : st := PSt (p_h s) (p_a s) (p_impr s) (p_cache s) (e :: p_ev s).
Definition set_h (s : st) (h : H) : st := PSt h (p_a s) (p_impr s) (p_cache s) (p_ev s).
Definition set_a (s : st) (a : A) : st := PSt (p_h s) a (p_impr s) (p_cache s) (p_ev s).
Definition set_impr (s : st) (b : bool) : st := PSt (p_h s) (p_a s) b (p_cache s) (p_ev s).
Definition set_cache (s : st) (k : option (list nat)) : st := PSt (p_h s) (p_a s) (p_impr s) k (p_ev s).

(** augSysSolver_->Solve( ... ) *)
Definition call_aug (Y : psys) (d : deltas) (b : av) (chk : bool) (n : nat) (s : st) : status * av * st :=
  let '(r, x, a) := a_solve ao (p_a s) Y d b chk n in
  (r, x, log (set_a s a) (E_aug (y_id Y) d chk r)).
(** augsys_improved_ = augSysSolver_->IncreaseQuality() *)
Definition call_incr (s : st) : st :=
  let '(b, a) := a_incr ao (p_a s) in log (set_impr (set_a s a) b) (E_quality b).

(** 417-424: right hand side of the augmented system *)
Definition aug_rhs (Y : psys) (rhs : iv) : av :=
  let x := pmsinvz (y_pxL Y) 1 (y_sxL Y) (vzL rhs) (vx rhs) in
  let x := pmsinvz (y_pxU Y) (-1) (y_sxU Y) (vzU rhs) x in
  let s := pmsinvz (y_pdL Y) 1 (y_ssL Y) (vvL rhs) (vs rhs) in
  let s := pmsinvz (y_pdU Y) (-1) (y_ssU Y) (vvU rhs) s in
  AV x s (vyc rhs) (vyd rhs).
(** IpExpansionMatrix.cpp:241-375: X = S^-1 (R + alpha Z M^T D) *)
Definition sinvblrm (p : list nat) (alpha : R) (S R Z D : vec) : vec :=
  mk (length p) (fun k => (el R k + alpha * el Z k * el D (nth k p O)) / el S k).
(** 644-648 *)
Definition back_subst (Y : psys) (rhs : iv) (a : av) : iv :=
  IV (ax a) (as_ a) (ac a) (ad a)
     (sinvblrm (y_pxL Y) (-1) (y_sxL Y) (vzL rhs) (y_zL Y) (ax a))
     (sinvblrm (y_pxU Y) 1 (y_sxU Y) (vzU rhs) (y_zU Y) (ax a))
     (sinvblrm (y_pdL Y) (-1) (y_ssL Y) (vvL rhs) (y_vL Y) (as_ a))
     (sinvblrm (y_pdU Y) 1 (y_ssU Y) (vvU rhs) (y_vU Y) (as_ a)).

(** 592-637: true: the direction has too little curvature *)
Definition bad_curvature (Y : psys) (d : deltas) (a : av) : bool :=
  let q := dot (mmul (y_W Y) 1 (ax a) 0 (ax a)) (ax a) in
  let q := q + dot (emul (ax a) (y_sigx Y)) (ax a) in
  let q := q + dot (emul (as_ a) (y_sigs Y)) (as_ a) in
  let q := if curv_reg o then
             let q := q + dot (vmap (Rmult (d_x d)) (ax a)) (ax a) in
             q + dot (vmap (Rmult (d_s d)) (as_ a)) (as_ a)
           else q in
  let nsq := nrm2 (ax a) * nrm2 (ax a) + nrm2 (as_ a) * nrm2 (as_ a) in
  if Rlt_dec q (curv_tol o * nsq) then true else false.
Definition curv_on : bool := if Rlt_dec 0 (curv_tol o) then true else false.

(** 500-640: the loop over the perturbations. None: [fuel] passes were not enough (it may run
    for ever, C15). Some None: return false. *)
Fixpoint pert_loop (fuel : nat) (Y : psys) (b : av) (pretend : bool) (d : deltas) (s : st) : option (option av) * st :=
  match fuel with
  | O => (None, s)
  | S fuel =>
      let nev := (dim (ac b) + dim (ad b))%nat in
      let '(r, x, s) :=
        if pretend then (SINGULAR, b, s)
        else call_aug Y d b (negb curv_on) nev s in
      let again (res : option deltas * H) (s : st) :=
        match res with
        | (None, h) => (Some None, set_h s h)
        | (Some d', h) => pert_loop fuel Y b false d' (set_h s h)
        end in
      match r with
      | FATAL_ERROR => (Some None, s)
      | SINGULAR =>
          if Nat.ltb 0 nev then again (h_sing ho (p_h s)) s else again (h_inertia ho (p_h s)) s
      | WRONG_INERTIA =>
          if Nat.ltb (a_neg ao (p_a s)) nev then
            let s1 := if p_impr s then s else call_incr s in
            if negb (p_impr s) && p_impr s1 then pert_loop fuel Y b false d s1        (* assume_singular == false *)
            else again (h_sing ho (p_h s1)) s1
          else again (h_inertia ho (p_h s)) s
      | SUCCESS | CALL_AGAIN =>
          let bad := curv_on && negb (Nat.eqb (a_neg ao (p_a s)) nev) && bad_curvature Y d x in
          if bad then again (h_inertia ho (p_h s)) s
          else match r with SUCCESS => (Some (Some x), s) | _ => pert_loop fuel Y b false d s end
      end
  end.

(** SolveOnce: 383-657. None: does not return; Some None: false *)
Definition solve_once (fuel : nat) (Y : psys) (refinement pretend : bool) (alpha beta : R) (rhs res : iv) (s : st)
  : option (option iv) * st :=
  let s := log s (E_once (y_id Y) refinement) in
  let b := aug_rhs Y rhs in
  let uptodate := match p_cache s with Some k => if list_eq_dec Nat.eq_dec k (y_id Y) then true else false | None => false end in
  let s := if uptodate then s else set_impr (set_cache s (Some (y_id Y))) false in
  let '(r, s) :=
    if uptodate && negb pretend then
      let '(r, x, s) := call_aug Y (h_cur ho (p_h s)) b false O s in
      (Some (match r with SUCCESS => Some x | _ => None end), s)
    else
      let '(d, h) := h_new ho (p_h s) in
      pert_loop fuel Y b pretend d (set_h s h) in
  match r with
  | None => (None, s)
  | Some None => (Some None, log s (E_fail (y_id Y)))
  | Some (Some x) => (Some (Some (ivmap2 (fun v y => add_one alpha v beta y) (back_subst Y rhs x) res)), s)
  end.

(** ComputeResiduals: 659-799 *)
Definition residuals (Y : psys) (d : deltas) (rhs res : iv) : iv :=
  let x := mmul (y_W Y) 1 (vx res) 0 (vx res) in
  let x := mtmul (y_Jc Y) 1 (vyc res) 1 x in
  let x := mtmul (y_Jd Y) 1 (vyd res) 1 x in
  let x := pmul (y_pxL Y) (-1) (vzL res) 1 x in
  let x := pmul (y_pxU Y) 1 (vzU res) 1 x in
  let x := add_two (d_x d) (vx res) (-1) (vx rhs) 1 x in
  let s := pmul (y_pdU Y) 1 (vvU res) 0 (vs res) in
  let s := pmul (y_pdL Y) (-1) (vvL res) 1 s in
  let s := add_two (-1) (vyd res) (-1) (vs rhs) 1 s in
  let s := if Req_EM_T (d_s d) 0 then s else axpy (d_s d) (vs res) s in
  let c := mmul (y_Jc Y) 1 (vx res) 0 (vyc res) in
  let c := add_two (- d_c d) (vyc res) (-1) (vyc rhs) 1 c in
  let dd := mmul (y_Jd Y) 1 (vx res) 0 (vyd res) in
  let dd := add_two (-1) (vs res) (-1) (vyd rhs) 1 dd in
  let dd := if Req_EM_T (d_d d) 0 then dd else axpy (- d_d d) (vyd res) dd in
  let zL := emul (vzL res) (y_sxL Y) in
  let t := emul (ptmul (y_pxL Y) 1 (vx res) 0 (y_zL Y)) (y_zL Y) in
  let zL := add_two 1 t (-1) (vzL rhs) 1 zL in
  let zU := emul (vzU res) (y_sxU Y) in
  let t := emul (ptmul (y_pxU Y) 1 (vx res) 0 (y_zU Y)) (y_zU Y) in
  let zU := add_two (-1) t (-1) (vzU rhs) 1 zU in
  let vL := emul (vvL res) (y_ssL Y) in
  let t := emul (ptmul (y_pdL Y) 1 (vs res) 0 (y_vL Y)) (y_vL Y) in
  let vL := add_two 1 t (-1) (vvL rhs) 1 vL in
  let vU := emul (vvU res) (y_ssU Y) in
  let t := emul (ptmul (y_pdU Y) 1 (vs res) 0 (y_vU Y)) (y_vU Y) in
  let vU := add_two (-1) t (-1) (vvU rhs) 1 vU in
  IV x s c dd zL zU vL vU.

(** A quotient may be a division by zero: x / 0 for x > 0, and 0 / 0 *)
Inductive rat := Fin (r : R) | Inf | NaN.
Definition rgt (a b : rat) : bool :=
  match a, b with
  | Fin x, Fin y => if Rlt_dec y x then true else false
  | Inf, Fin _ => true
  | _, _ => false
  end.
Definition rscale (c : R) (a : rat) : rat := match a with Fin x => Fin (c * x) | _ => a end.   (* c > 0 *)
(** ComputeResidualRatio: 801-828 *)
Definition resid_ratio (rhs res resid : iv) : rat :=
  let nrm_rhs := iv_amax rhs in
  let nrm_res := iv_amax res in
  let nrm_resid := iv_amax resid in
  if Req_EM_T (nrm_rhs + nrm_res) 0 then Fin nrm_resid
  else
    let den := Rmin nrm_res (1000000 * nrm_rhs) + nrm_rhs in
    if Req_EM_T den 0 then (if Req_EM_T nrm_resid 0 then NaN else Inf)
    else Fin (nrm_resid / den).

Inductive result := R_true (res : iv) | R_false (res : iv) | R_abort | R_never.

Record flags := Fl { f_resolve : bool; f_pretend : bool; f_last : bool }.

(** 277-334: giving up on iterative refinement *)
Definition give_up (ratio : rat) (f : flags) (s : st) : flags * st :=
  if f_last f then (Fl false false true, s)
  else
    let s1 := if p_impr s then s else call_incr s in
    let asked := negb (p_impr s) in
    if asked && p_impr s1 then (Fl true false false, s1)
    else if rgt (Fin (rr_sing o)) ratio then (Fl false false true, s1)
    else (Fl false true true, log s1 E_singular).

(** 253-341: the loop for iterative refinement; [n] is num_iter_ref *)
Fixpoint refine (fuel fo : nat) (Y : psys) (rhs : iv) (n : nat) (ratio ratio_old : rat) (f : flags) (res resid : iv) (s : st)
  : option (option (flags * iv)) * st :=
  if Nat.ltb n (min_ref o) || rgt ratio (Fin (rr_max o)) then
    match fuel with
    | O => (None, s)
    | S fuel =>
        let '(r, s) := solve_once fo Y true false (-1) 1 resid res s in
        match r with
        | None => (None, s)
        | Some None => (Some None, s)                                     (* ASSERT_EXCEPTION(solve_retval, INTERNAL_ABORT) *)
        | Some (Some res) =>
            let resid := residuals Y (h_cur ho (p_h s)) rhs res in
            let ratio := resid_ratio rhs res resid in
            let n := S n in
            if rgt ratio (Fin (rr_max o)) && Nat.ltb (min_ref o) n &&
               (Nat.ltb (max_ref o) n || rgt ratio (rscale (rr_impr o) ratio_old))
            then let '(f, s) := give_up ratio f s in (Some (Some (f, res)), s)
            else refine fuel fo Y rhs n ratio ratio f res resid s
        end
    end
  else (Some (Some (f, res)), s).

(** 203-344: the loop for solving the system; [fr]: fuel of one refinement loop *)
Fixpoint solve_loop (fuel fr fo : nat) (Y : psys) (inexact improve : bool) (rhs : iv) (f : flags) (res : iv) (s : st) : result * st :=
  match fuel with
  | O => (R_never, s)
  | S fuel =>
      let '(r, f, s) :=
        if improve then (Some (Some res), f, s)
        else let '(r, s) := solve_once fo Y false (f_pretend f) 1 0 rhs res s in (r, Fl false false (f_last f), s) in
      match r with
      | None => (R_never, s)
      | Some None => (R_false res, s)
      | Some (Some res) =>
          if inexact then (R_true res, s)
          else
            let resid := residuals Y (h_cur ho (p_h s)) rhs res in
            let ratio := resid_ratio rhs res resid in
            let '(q, s) := refine fr fo Y rhs O ratio ratio f res resid s in
            match q with
            | None => (R_never, s)
            | Some None => (R_abort, s)
            | Some (Some (f, res)) =>
                if negb (f_resolve f) && negb (f_pretend f) then (R_true res, s)
                else solve_loop fuel fr fo Y inexact false rhs f res s
            end
      end
  end.

(** Solve: 128-381 *)
Definition solve (fuel fr fo : nat) (Y : psys) (alpha beta : R) (rhs res0 : iv) (inexact improve : bool) (s : st) : result * st :=
  match solve_loop fuel fr fo Y inexact improve rhs (Fl false false false) res0 s with
  | (R_true res, s) =>
      let res := if Req_EM_T alpha 0 then res else ivmap (vmap (Rmult alpha)) res in
      let res := if Req_EM_T beta 0 then res else ivmap2 (fun y x => axpy beta x y) res res0 in
      (R_true res, s)
  | r => r
  end.

(** ** IpPDSearchDirCalc.cpp: ComputeSearchDirection, 56-146 *)
(** the vectors it reads: IpCq's answers and delta_aff *)
Record cqv := Cqv {
  q_gx : vec; q_gs : vec; q_c : vec; q_dms : vec;            (* curr_grad_lag_with_damping_x/s, curr_c, curr_d_minus_s *)
  q_zL : vec; q_zU : vec; q_vL : vec; q_vU : vec             (* curr_relaxed_compl_x_L, ... *)
}.
Definition mehrotra_part (p : list nat) (sg : R) (dz dx relc : vec) : vec :=
  axpy 1 relc (emul (ptmul p sg dx 0 dz) dz).
Definition search_rhs (Y : psys) (q : cqv) (mehrotra : bool) (aff : iv) : iv :=
  let nb := (length (y_pxL Y) + length (y_pxU Y) + length (y_pdL Y) + length (y_pdU Y))%nat in
  if Nat.ltb 0 nb && mehrotra then
    IV (q_gx q) (q_gs q) (q_c q) (q_dms q)
       (mehrotra_part (y_pxL Y) 1 (vzL aff) (vx aff) (q_zL q))
       (mehrotra_part (y_pxU Y) (-1) (vzU aff) (vx aff) (q_zU q))
       (mehrotra_part (y_pdL Y) 1 (vvL aff) (vs aff) (q_vL q))
       (mehrotra_part (y_pdU Y) (-1) (vvU aff) (vs aff) (q_vU q))
  else IV (q_gx q) (q_gs q) (q_c q) (q_dms q) (q_zL q) (q_zU q) (q_vL q) (q_vU q).
(** [have]: IpData().delta() if HaveDeltas(); [fresh]: the values of the new vector (unspecified).
    The result: IpData().delta() afterwards *)
Definition search_dir (fuel fr fo : nat) (Y : psys) (q : cqv) (mehrotra fast : bool) (aff : iv) (have : option iv) (fresh : iv) (s : st)
  : result * st :=
  let rhs := search_rhs Y q mehrotra aff in
  match have with
  | Some d =>
      if fast then (R_true d, s)
      else solve fuel fr fo Y (-1) 0 rhs (ivmap2 (fun y v => add_one (-1) v 0 y) fresh d) fast true s
  | None => solve fuel fr fo Y (-1) 0 rhs fresh fast false s
  end.
End Pd.
