(** Model of src/Algorithm/IpStdAugSystemSolver.cpp (MultiSolve, CreateAugmentedSystem,
    AugmentedSystemRequiresChange), src/Algorithm/IpLeastSquareMults.cpp (CalculateMultipliers)
    and of the parts of src/Algorithm/IpDefaultIterateInitializer.cpp that set up linear systems:
    SetInitialIterates without warm start, CalculateLeastSquarePrimals, CalculateLeastSquareDuals,
    least_square_mults.

    - Numbers are the reals; vectors and matrices are those of CQModel.
    - The symmetric linear solver (C69) and the solver of the augmented system (the others) are
      arbitrary state machines.
    - push_variables (C30) and the slacks (C32) are arbitrary functions here.
    - Output, timing and info strings are left out. *)
From Coq Require Import Reals List Arith Bool.
From Verif Require Import CQModel PdModel.
Import ListNotations.
Open Scope R_scope.

(** * The augmented system *)
(** the arguments of AugSystemSolver::Solve (IpAugSystemSolver.hpp:58-110): values; None: NULL *)
Record aarg := AArg {
  g_W : option mat; g_wf : R;
  g_Dx : option vec; g_dx : R; g_Ds : option vec; g_ds : R;
  g_Jc : mat; g_Dc : option vec; g_dc : R;
  g_Jd : mat; g_Dd : option vec; g_dd : R
}.
(** the tags of the objects passed as pointers (those of NULL pointers are never read) *)
Record atag := ATag { t_W : nat; t_Dx : nat; t_Ds : nat; t_Jc : nat; t_Dc : nat; t_Jd : nat; t_Dd : nat }.

(** the blocks of augmented_system_ (CreateAugmentedSpace 233-302) that are set: the lower triangle
    of a CompoundSymMatrix. (1,1) is a SumSymMatrix with the terms b_wf * b_W and diag b_x; (4,2) is an IdentityMatrix with factor b_f *)
Record kkt := Kkt { b_wf : R; b_W : mat; b_x : vec; b_s : vec; b_Jc : mat; b_c : vec; b_Jd : mat; b_f : R; b_d : vec }.

(** CompoundSymMatrix::MultVectorImpl (C54) for these blocks, with alpha = 1, beta = 0:
    blocks below the diagonal are used twice, the second time transposed *)
Definition kmul (K : kkt) (a : av) : av :=
  let nx := dim (b_x K) in let ns := dim (b_s K) in let nc := dim (b_c K) in let nd := dim (b_d K) in
  let x := vset nx 0 in
  let x := mk nx (fun i => el x i + b_wf K * el (mmul (b_W K) 1 (ax a) 0 x) i) in
  let x := mk nx (fun i => el x i + el (b_x K) i * el (ax a) i) in
  let x := mtmul (b_Jc K) 1 (ac a) 1 x in
  let x := mtmul (b_Jd K) 1 (ad a) 1 x in
  let s := vset ns 0 in
  let s := mk ns (fun i => el s i + el (b_s K) i * el (as_ a) i) in
  let s := mk ns (fun i => el s i + b_f K * el (ad a) i) in
  let c := vset nc 0 in
  let c := mmul (b_Jc K) 1 (ax a) 1 c in
  let c := mk nc (fun i => el c i + el (b_c K) i * el (ac a) i) in
  let d := vset nd 0 in
  let d := mmul (b_Jd K) 1 (ax a) 1 d in
  let d := mk nd (fun i => el d i + b_f K * el (as_ a) i) in
  let d := mk nd (fun i => el d i + el (b_d K) i * el (ad a) i) in
  AV x s c d.

(** * StdAugSystemSolver *)
Record sst (L : Type) := SSt {
  s_l : L;                          (* linsolver_ *)
  s_sys : option (nat * kkt);       (* augmented_system_ with its tag *)
  s_oldw : option mat;              (* old_w_ *)
  s_tags : atag;                    (* w_tag_, d_x_tag_, ... *)
  s_wf : R; s_dx : R; s_ds : R; s_dc : R; s_dd : R;   (* w_factor_, delta_x_, ... *)
  s_next : nat                      (* the next tag TaggedObject hands out *)
}.
Arguments SSt {L}. Arguments s_l {L}. Arguments s_sys {L}. Arguments s_oldw {L}. Arguments s_tags {L}.
Arguments s_wf {L}. Arguments s_dx {L}. Arguments s_ds {L}. Arguments s_dc {L}. Arguments s_dd {L}. Arguments s_next {L}.
(** IpSymLinearSolver.hpp MultiSolve: matrix (tag, value), right hand sides, check_NegEVals, numberOfNegEVals *)
Definition linsolver (L : Type) := L -> nat * kkt -> list av -> bool -> nat -> status * list av * L.

(** 337-358 and the four other diagonal blocks: D may be NULL; n is the dimension of the prototype.
    The branch delta == 0 uses D itself *)
Definition diag_block (D : option vec) (delta : R) (sgn : R) (n : nat) : vec :=
  match D with
  | Some v => if Req_EM_T delta 0 then v else vmap (fun u => u + sgn * delta) v
  | None => vset n (sgn * delta)
  end.
Definition tag_or_0 {A} (o : option A) (t : nat) : nat := match o with Some _ => t | None => O end.
(** CreateAugmentedSystem 304-458; the prototypes are the parts of the first right hand side *)
Definition create {L} (q : aarg) (t : atag) (b : av) (s : sst L) : sst L :=
  let Wm := match g_W q with Some W => W | None => match s_oldw s with Some W => W | None => Mat 0 0 (fun _ _ => 0) end end in
  let wf := match g_W q with Some _ => g_wf q | None => 0 end in
  let K := Kkt wf Wm (diag_block (g_Dx q) (g_dx q) 1 (dim (ax b))) (diag_block (g_Ds q) (g_ds q) 1 (dim (as_ b)))
               (g_Jc q) (diag_block (g_Dc q) (g_dc q) (-1) (dim (ac b))) (g_Jd q) (-1) (diag_block (g_Dd q) (g_dd q) (-1) (dim (ad b))) in
  SSt (s_l s) (Some (s_next s, K)) (match g_W q with Some W => Some W | None => s_oldw s end)
      (ATag (tag_or_0 (g_W q) (t_W t)) (tag_or_0 (g_Dx q) (t_Dx t)) (tag_or_0 (g_Ds q) (t_Ds t)) (t_Jc t)
            (tag_or_0 (g_Dc q) (t_Dc t)) (t_Jd t) (tag_or_0 (g_Dd q) (t_Dd t)))
      (g_wf q) (g_dx q) (g_ds q) (g_dc q) (g_dd q) (S (s_next s)).
(** AugmentedSystemRequiresChange 460-542 *)
Definition changed_ptr {A} (o : option A) (t stored : nat) : bool :=
  match o with Some _ => negb (t =? stored)%nat | None => negb (stored =? 0)%nat end.
Definition changed_num (a b : R) : bool := if Req_EM_T a b then false else true.
Definition requires_change {L} (q : aarg) (t : atag) (s : sst L) : bool :=
  let u := s_tags s in
  changed_ptr (g_W q) (t_W t) (t_W u) || changed_num (g_wf q) (s_wf s)
  || changed_ptr (g_Dx q) (t_Dx t) (t_Dx u) || changed_num (g_dx q) (s_dx s)
  || changed_ptr (g_Ds q) (t_Ds t) (t_Ds u) || changed_num (g_ds q) (s_ds s)
  || negb (t_Jc t =? t_Jc u)%nat || changed_ptr (g_Dc q) (t_Dc t) (t_Dc u) || changed_num (g_dc q) (s_dc s)
  || negb (t_Jd t =? t_Jd u)%nat || changed_ptr (g_Dd q) (t_Dd t) (t_Dd u) || changed_num (g_dd q) (s_dd s).
(** MultiSolve 81-231, up to the call of the linear solver: the state in which it is called.
    CreateAugmentedSpace (233-302, first call only) sets old_w_ *)
Definition prepare {L} (q : aarg) (t : atag) (bs : list av) (s : sst L) : sst L :=
  let b := nth 0 bs (AV [] [] [] []) in
  let s := match s_sys s with
           | Some _ => s
           | None => create q t b (SSt (s_l s) None (g_W q) (s_tags s) (s_wf s) (s_dx s) (s_ds s) (s_dc s) (s_dd s) (s_next s))
           end in
  if requires_change q t s then create q t b s else s.
(** the call itself; None: no matrix (never the case, C69) *)
Definition multi_solve {L} (ls : linsolver L) (q : aarg) (t : atag) (bs : list av) (chk : bool) (n : nat) (s : sst L)
  : option (status * list av * (nat * kkt) * sst L) :=
  let s := prepare q t bs s in
  match s_sys s with
  | None => None
  | Some K =>
    let '(r, xs, l) := ls (s_l s) K bs chk n in
    Some (r, xs, K, SSt l (s_sys s) (s_oldw s) (s_tags s) (s_wf s) (s_dx s) (s_ds s) (s_dc s) (s_dd s) (s_next s))
  end.
(** InitializeImpl 59-79 with warm_start_same_structure off (tags keep their values); new objects come from one counter *)
Definition std_init {L} (s : sst L) : sst L :=
  SSt (s_l s) None (s_oldw s) (s_tags s) (s_wf s) (s_dx s) (s_ds s) (s_dc s) (s_dd s) (s_next s).

(** * Least squares *)
Section LS.
Context {L : Type}.
(** AugSystemSolver::Solve and ProvidesInertia *)
Variable asolve : L -> aarg -> av -> bool -> nat -> status * av * L.
Variable inertia : L -> bool.
Variable P : nlp.
Variable W0 : mat.                  (* IpNLP().uninitialized_h(): any values *)

(** IpLeastSquareMults.cpp:30-112 CalculateMultipliers at the current iterate [v]; None: returns false *)
Definition calc_mults (v : iv) (l : L) : option (vec * vec) * L :=
  let rx := pmul (pxL P) 1 (vzL v) (-1) (fn_g P (vx v)) in
  let rx := pmul (pxU P) (-1) (vzU v) 1 rx in
  let rs := pmul (pdL P) 1 (vvL v) 0 (vset (n_s P) 0) in
  let rs := pmul (pdU P) (-1) (vvU v) 1 rs in
  let '(r, a, l) := asolve l (AArg (Some W0) 0 None 1 None 1 (fn_Jc P (vx v)) None 0 (fn_Jd P (vx v)) None 0)
                             (AV rx rs (vset (n_c P) 0) (vset (n_s P) 0)) (inertia l) (n_c P + n_s P) in
  match r with SUCCESS => (Some (ac a, ad a), l) | _ => (None, l) end.

(** IpDefaultIterateInitializer.cpp:349-395 CalculateLeastSquarePrimals at the current x *)
Definition ls_primals (x : vec) (l : L) : option (vec * vec) * L :=
  let '(r, a, l) := asolve l (AArg (Some W0) 0 None 1 None 1 (fn_Jc P x) None 0 (fn_Jd P x) None 0)
                             (AV (vset (n_x P) 0) (vset (n_s P) 0) (fn_c P x) (fn_d P x)) true (n_c P + n_s P) in
  match r with SUCCESS => (Some (vmap (Rmult (-1)) (ax a), vmap (Rmult (-1)) (as_ a)), l) | _ => (None, l) end.

(** 397-473 CalculateLeastSquareDuals: Jacobians at the current x [xc], objective gradient at the trial x [xt] *)
Definition minus_ones (n : nat) (pL pU : list nat) : vec :=
  let D := pmul pL 1 (vset (length pL) (-1)) 0 (vset n 0) in
  pmul pU 1 (vset (length pU) (-1)) 1 D.
Definition ls_duals (xc xt : vec) (l : L) : option (vec * vec * (vec * vec * vec * vec)) * L :=
  let '(r, a, l) := asolve l (AArg (Some W0) 0 (Some (minus_ones (n_x P) (pxL P) (pxU P))) 0 (Some (minus_ones (n_s P) (pdL P) (pdU P))) 0
                                   (fn_Jc P xc) None 0 (fn_Jd P xc) None 0)
                             (AV (fn_g P xt) (vset (n_s P) 0) (vset (n_c P) 0) (vset (n_s P) 0)) true (n_x P + n_s P) in
  match r with
  | SUCCESS => (Some (vmap (Rmult (-1)) (ac a), vmap (Rmult (-1)) (ad a),
                      (ptmul (pxL P) (-1) (ax a) 0 [], ptmul (pxU P) 1 (ax a) 0 [],
                       ptmul (pdL P) (-1) (as_ a) 0 [], ptmul (pdU P) 1 (as_ a) 0 [])), l)
  | _ => (None, l)
  end.

Record iopts := IOp {
  ls_primal_on : bool; ls_duals_on : bool;      (* least_square_init_primal, least_square_init_duals *)
  mu_based : bool;                              (* bound_mult_init_method *)
  mult_val : R; mu_init : R;                    (* bound_mult_init_val, mu_init *)
  mult_max : R; has_calc : bool                 (* constr_mult_init_max, IsValid(eq_mult_calculator_) *)
}.
Definition set_y (v : iv) (yc yd : vec) : iv := IV (vx v) (vs v) yc yd (vzL v) (vzU v) (vvL v) (vvU v).
(** 669-741 least_square_mults: [v] is the trial point; it is copied to the current point before the multipliers are computed *)
Definition least_square_mults (calc : bool) (ymax : R) (v : iv) (l : L) : iv * L :=
  let zero := set_y v (vset (n_c P) 0) (vset (n_s P) 0) in
  if (n_c P =? n_x P)%nat then (zero, l)
  else if calc && (if Rlt_dec 0 ymax then true else false) && (0 <? n_c P + n_s P)%nat then
    match calc_mults v l with
    | (None, l) => (zero, l)
    | (Some (yc, yd), l) => if Rlt_dec ymax (Rmax (amax yc) (amax yd)) then (zero, l) else (set_y v yc yd, l)
    end
  else (zero, l).

Variables (push_x push_s : vec -> vec) (slack : bd -> vec -> vec -> vec).
(** 172-347 SetInitialIterates, no warm start; [x0] is the user's starting point *)
Definition init_mults (o : iopts) (x s : vec) : iv :=
  let m b p := if mu_based o then vmap2 Rdiv (vset (length p) (mu_init o)) (slack b x s) else vset (length p) (mult_val o) in
  IV x s [] [] (m XL (pxL P)) (m XU (pxU P)) (m SL (pdL P)) (m SU (pdU P)).
Definition set_initial (o : iopts) (x0 : vec) (l : L) : iv * L :=
  let '(x, l) := if ls_primal_on o then match ls_primals x0 l with (Some (x, _), l) => (x, l) | (None, l) => (x0, l) end else (x0, l) in
  let x := push_x x in
  let s := push_s (fn_d P x) in
  let v := init_mults o x s in
  let '(r, l) := if ls_duals_on o then ls_duals x0 x l else (None, l) in
  match r with
  | Some (yc, yd, (zL, zU, vL, vU)) =>
    (IV x s yc yd (vmap2 Rmax zL (vzL v)) (vmap2 Rmax zU (vzU v)) (vmap2 Rmax vL (vvL v)) (vmap2 Rmax vU (vvU v)), l)
  | None => least_square_mults (has_calc o) (mult_max o) v l
  end.
End LS.
