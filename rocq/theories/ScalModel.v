(** Model of problem scaling:
    - /repo/src/Algorithm/IpNLPScaling.cpp (NLPScalingObject, StandardScalingBase)
    - /repo/src/Algorithm/IpGradientScaling.cpp:69-225, IpUserScaling.cpp
    - /repo/src/LinAlg/IpScaledMatrix.cpp:22-96, 193-230, IpSymScaledMatrix.cpp:22-58
    - /repo/src/Algorithm/IpOrigIpoptNLP.cpp:356-458 (scaled bounds and starting
      point), 483-805 (evaluation of the scaled functions), 887-962
      (FinalizeSolution), 1004-1015
    - /repo/src/Algorithm/IpIpoptCalculatedQuantities.cpp:601, 1116, 1162, 1527-1590,
      1993-2100, 2514-2568, 2746-2795, 2947 (unscaled errors)
    - /repo/src/Interfaces/IpTNLPAdapter.cpp:1997-2092 (GetScalingParameters)

    Polymorphic in the number type. Vectors are lists, matrices are lists of rows
    (the user's matrices are triplet matrices; only their products with vectors
    are used here). The vector operations are the elementwise ones proved for the
    vector classes in C20/C23. Caches (C03-C06) and the failing of evaluations
    (C41) are not part of this file. An absent scaling vector is None. *)
From Coq Require Import List Bool Arith Reals.
From Verif Require Import Num VecModel.
Import ListNotations.

Section Model.
Context {T : Type} (O : nops T).
Local Notation "x + y" := (tadd O x y).
Local Notation "x - y" := (tsub O x y).
Local Notation "x * y" := (tmul O x y).
Local Notation "x / y" := (tdiv O x y).
Local Notation "- x" := (topp O x).
Local Notation "x <? y" := (tlt O x y).
Local Notation "x =? y" := (teq O x y).
Local Notation zero := (t0 O).
Local Notation one := (t1 O).

Definition matrix := list (list T).

(** IpVector: Scal (nothing for factor 1), ElementWiseMultiply, ElementWiseDivide,
    ElementWiseReciprocal, Axpy; with an optional second operand *)
Definition vscal (a : T) (v : list T) : list T := if a =? one then v else map (fun y => a * y) v.
Definition vmul (d : option (list T)) (v : list T) : list T :=
  match d with Some d => map2 (tmul O) v d | None => v end.
Definition vdiv (d : option (list T)) (v : list T) : list T :=
  match d with Some d => map2 (tdiv O) v d | None => v end.
Definition recip (d : list T) : list T := map (fun y => one / y) d.
Definition axpy (a : T) (x y : list T) : list T := map2 (fun y x => y + a * x) y x.

(** products with the unscaled matrix: A x, A^T y (IpMatrix.hpp MultVector and
    TransMultVector with alpha = 1, beta = 0) *)
Definition dot (r x : list T) : T := sum O (map2 (tmul O) r x).
Definition mv (A : matrix) (x : list T) : list T := map (fun r => dot r x) A.
Definition tmv (n : nat) (A : matrix) (y : list T) : list T :=
  fold_left (fun acc ry => axpy (snd ry) (fst ry) acc) (combine A y) (repeat zero n).

(** ** Expansion matrices: [pos] are the positions of the components in the large
    vector (IpExpansionMatrix.cpp:27-95, 97-160, with beta = 0, alpha = 1) *)
Fixpoint addat (i : nat) (a : T) (l : list T) : list T :=
  match i, l with 0%nat, b :: l => (b + a) :: l | S i, b :: l => b :: addat i a l | _, [] => [] end.
Definition expand_into (pos : list nat) (a : T) (v : list T) (y : list T) : list T :=
  fold_left (fun acc pv => addat (fst pv) (a * snd pv) acc) (combine pos v) y.
Definition expand (n : nat) (pos : list nat) (v : list T) : list T := expand_into pos one v (repeat zero n).
Definition pick (pos : list nat) (v : list T) : list T := map (fun i => nth i v zero) pos.

(** ** the scaling object, IpNLPScaling.hpp: df_, dx_, row scalings of the
    Jacobian spaces *)
Record scaling := SC { sf : T; sx : option (list T); sc : option (list T); sd : option (list T) }.

(** IpNLPScaling.cpp:370-385 *)
Definition apply_obj (s : scaling) (f : T) : T := sf s * f.
Definition unapply_obj (s : scaling) (f : T) : T := f / sf s.
(** 387-560 *)
Definition apply_x (s : scaling) (v : list T) := vmul (sx s) v.
Definition unapply_x (s : scaling) (v : list T) := vdiv (sx s) v.
Definition apply_c (s : scaling) (v : list T) := vmul (sc s) v.
Definition unapply_c (s : scaling) (v : list T) := vdiv (sc s) v.
Definition apply_d (s : scaling) (v : list T) := vmul (sd s) v.
Definition unapply_d (s : scaling) (v : list T) := vdiv (sd s) v.
(** 25-158: through the full space *)
Definition apply_x_LU (s : scaling) (n : nat) (pos : list nat) (v : list T) : list T :=
  match sx s with Some _ => pick pos (apply_x s (expand n pos v)) | None => v end.
Definition apply_d_LU (s : scaling) (n : nat) (pos : list nat) (v : list T) : list T :=
  match sd s with Some _ => pick pos (apply_d s (expand n pos v)) | None => v end.
(** 160-192 and 194-226: the gradient goes the other way than x *)
Definition apply_grad (s : scaling) (v : list T) : list T := vscal (apply_obj s one) (unapply_x s v).
Definition unapply_grad (s : scaling) (v : list T) : list T := vscal (unapply_obj s one) (apply_x s v).

(** ** ScaledMatrix, IpScaledMatrix.cpp:193-230: row scaling as given, column
    scaling inverted; IpNLPScaling.cpp:330-369 *)
Definition colscal (s : scaling) : option (list T) := option_map recip (sx s).
(** 24-59 *)
Definition start_y (beta : T) (y : list T) : list T :=
  if negb (beta =? zero) then vscal beta y else map (fun _ => zero) y.
Definition sm_mult (row col : option (list T)) (A : matrix) (alpha : T) (x : list T) (beta : T) (y : list T) : list T :=
  let y := start_y beta y in
  let tmp_x := vmul col x in
  let tmp_y := mv A tmp_x in
  let tmp_y := vmul row tmp_y in
  axpy alpha tmp_y y.
(** 61-96 *)
Definition sm_tmult (row col : option (list T)) (A : matrix) (alpha : T) (x : list T) (beta : T) (y : list T) : list T :=
  let y := start_y beta y in
  let tmp_x := vmul row x in
  let tmp_y := tmv (length y) A tmp_x in
  let tmp_y := vmul col tmp_y in
  axpy alpha tmp_y y.
(** IpSymScaledMatrix.cpp:22-58 *)
Definition ssm_mult (rc : option (list T)) (H : matrix) (alpha : T) (x : list T) (beta : T) (y : list T) : list T :=
  let y := start_y beta y in
  let tmp_x := vmul rc x in
  let tmp_y := mv H tmp_x in
  let tmp_y := vmul rc tmp_y in
  axpy alpha tmp_y y.

(** ** the problem as the user gives it and as the algorithm sees it *)
Record nlp := NLP {
  n_f : list T -> T; n_grad : list T -> list T;
  n_c : list T -> list T; n_jc : list T -> matrix;
  n_d : list T -> list T; n_jd : list T -> matrix;
  n_h : list T -> T -> list T -> list T -> matrix }.

(** IpOrigIpoptNLP.cpp:483-505 *)
Definition s_f (s : scaling) (p : nlp) (x : list T) : T := apply_obj s (n_f p (unapply_x s x)).
(** 516-544 *)
Definition s_grad (s : scaling) (p : nlp) (x : list T) : list T := apply_grad s (n_grad p (unapply_x s x)).
(** 556-597, 599-645 *)
Definition s_c (s : scaling) (p : nlp) (x : list T) : list T := apply_c s (n_c p (unapply_x s x)).
Definition s_d (s : scaling) (p : nlp) (x : list T) : list T := apply_d s (n_d p (unapply_x s x)).
(** 647-745: the returned matrix is used through its products with vectors *)
Definition jc_mult (s : scaling) (p : nlp) (x v : list T) : list T :=
  let A := n_jc p (unapply_x s x) in sm_mult (sc s) (colscal s) A one v zero (repeat zero (length A)).
Definition jc_tmult (s : scaling) (p : nlp) (x v : list T) : list T :=
  sm_tmult (sc s) (colscal s) (n_jc p (unapply_x s x)) one v zero (repeat zero (length x)).
Definition jd_mult (s : scaling) (p : nlp) (x v : list T) : list T :=
  let A := n_jd p (unapply_x s x) in sm_mult (sd s) (colscal s) A one v zero (repeat zero (length A)).
Definition jd_tmult (s : scaling) (p : nlp) (x v : list T) : list T :=
  sm_tmult (sd s) (colscal s) (n_jd p (unapply_x s x)) one v zero (repeat zero (length x)).
(** 752-805 *)
Definition h_mult (s : scaling) (p : nlp) (x : list T) (obj_factor : T) (yc yd v : list T) : list T :=
  ssm_mult (colscal s) (n_h p (unapply_x s x) (apply_obj s obj_factor) (apply_c s yc) (apply_d s yd))
    one v zero (repeat zero (length x)).

(** ** the starting point, 396-458; [lpos], [upos]: positions of the variables with
    lower and upper bounds *)
Definition start_x (s : scaling) (x : list T) : list T := apply_x s x.
Definition start_yc (s : scaling) (y : list T) : list T := vscal (apply_obj s one) (unapply_c s y).
Definition start_yd (s : scaling) (y : list T) : list T := vscal (apply_obj s one) (unapply_d s y).
Definition start_z (s : scaling) (n : nat) (pos : list nat) (z : list T) : list T :=
  vscal (apply_obj s one) (apply_x_LU s n pos z).

(** ** FinalizeSolution, 887-935 (without honor_original_bounds, see C46) *)
Definition fin_x (s : scaling) (x : list T) : list T := unapply_x s x.
Definition fin_obj (s : scaling) (f : T) : T := unapply_obj s f.
Definition fin_c (s : scaling) (c : list T) : list T := unapply_c s c.
Definition fin_d (s : scaling) (d : list T) : list T := unapply_d s d.
Definition fin_z (s : scaling) (n : nat) (pos : list nat) (z : list T) : list T :=
  vscal (unapply_obj s one) (apply_x_LU s n pos z).
Definition fin_yc (s : scaling) (y : list T) : list T := vscal (unapply_obj s one) (apply_c s y).
Definition fin_yd (s : scaling) (y : list T) : list T := vscal (unapply_obj s one) (apply_d s y).

(** ** errors measured by the algorithm *)
(** IpIpoptCalculatedQuantities.cpp:1993-2030 *)
Definition grad_lag_x (s : scaling) (p : nlp) (lpos upos : list nat) (x yc yd zl zu : list T) : list T :=
  let tmp := map3 (fun g a b => (one * a + one * b) + one * g) (s_grad s p x) (jc_tmult s p x yc) (jd_tmult s p x yd) in
  let tmp := expand_into lpos (tm1 O) zl tmp in
  expand_into upos one zu tmp.
(** 2069-2100 *)
Definition grad_lag_s (lpos upos : list nat) (yd vl vu : list T) : list T :=
  let tmp := expand (length yd) upos vu in
  let tmp := expand_into lpos (tm1 O) vl tmp in
  axpy (tm1 O) yd tmp.

Inductive norm := NORM_1 | NORM_2 | NORM_MAX.
Definition asum (v : list T) : T := sum O (map (tabs O) v).
Definition nrm2 (v : list T) : T := tsqrt O (sum O (map (fun y => y * y) v)).
Definition amax (v : list T) : T := blas_amax O v.
(** 2534-2568 (2514-2532 is the same for two vectors) *)
Definition norm_of (nt : norm) (vs : list (list T)) : T :=
  match nt with
  | NORM_1 => fold_left (fun r v => r + asum v) vs zero
  | NORM_2 => tsqrt O (fold_left (fun r v => r + nrm2 v * nrm2 v) vs zero)
  | NORM_MAX => fold_left (fun r v => tmax O r (amax v)) vs zero
  end.
(** 2746-2795: unscaled_curr_dual_infeasibility *)
Definition unscaled_dual_inf (nt : norm) (s : scaling) (p : nlp) (lpos upos slpos supos : list nat)
  (x yc yd zl zu vl vu : list T) : T :=
  let gx := unapply_grad s (grad_lag_x s p lpos upos x yc yd zl zu) in
  let gs := vscal (unapply_obj s one) (apply_d s (grad_lag_s slpos supos yd vl vu)) in
  norm_of nt [gx; gs].
(** 1527-1590: unscaled_curr_nlp_constraint_violation; [dl], [du] are the scaled bounds *)
Definition unscaled_viol (nt : norm) (s : scaling) (p : nlp) (slpos supos : list nat) (dl du : list T) (x : list T) : T :=
  let c := unapply_c s (s_c s p x) in
  let d := s_d s p x in
  let low := map (fun v => tmax O v zero) (pick slpos (unapply_d s (expand_into slpos one dl (vscal (tm1 O) d)))) in
  let upp := map (fun v => tmin O v zero) (pick supos (unapply_d s (expand_into supos one du (vscal (tm1 O) d)))) in
  norm_of nt [c; low; upp].
(** CalcSlack_L, CalcSlack_U (238-266) and CalcCompl (2229-2240) *)
Definition slack_L (pos : list nat) (x b : list T) : list T := map2 (fun b x => (- b) + x) b (pick pos x).
Definition slack_U (pos : list nat) (x b : list T) : list T := map2 (fun b x => b - x) b (pick pos x).
Definition compl (slack z : list T) : list T := map2 (tmul O) slack z.
(** 2947-2953 with mu = 0: unscaled_curr_complementarity; the arguments are the
    four products slack * multiplier *)
Definition unscaled_compl (nt : norm) (s : scaling) (prods : list (list T)) : T :=
  tabs O (unapply_obj s (norm_of nt prods)).

(** ** GradientScaling::DetermineScalingParametersImpl, IpGradientScaling.cpp:69-225 *)
(** 100-133; None: evaluation failed *)
Definition grad_df (maxgrad target minv : T) (g : option (list T)) : T :=
  match g with
  | Some g =>
      let m := amax g in
      let df :=
        if target =? zero then (if maxgrad <? m then maxgrad / m else one)
        else if m =? zero then one else target / m in
      tmax O df minv
  | None => one
  end.
(** row maxima starting from [dmin] = DBL_MIN (147-149, GenTMatrix::ComputeRowAMaxImpl
    IpGenTMatrix.cpp:187-212; the maximum is over the stored entries) *)
Definition row_amax (dmin : T) (r : list T) : T := fold_left (fun m a => tmax O m (tabs O a)) r dmin.
(** 140-180 and 186-222 *)
Definition grad_dc (maxgrad target minv dmin : T) (A : option matrix) : option (list T) :=
  match A with
  | Some ((_ :: _) as A) =>
      let dc := map (row_amax dmin) A in
      let arow_max := amax dc in
      let dc :=
        if negb (zero <? target) then
          if maxgrad <? arow_max then
            Some (map (fun y => tmin O y one) (vscal maxgrad (recip dc)))
          else None
        else Some (map (fun _ => target / arow_max) dc) in
      if zero <? minv then option_map (map (fun y => tmax O y minv)) dc else dc
  | _ => None
  end.
Definition gradient_scaling (maxgrad otarget ctarget minv dmin : T) (g : option (list T)) (Jc Jd : option matrix) : scaling :=
  SC (grad_df maxgrad otarget minv g) None
     (grad_dc maxgrad ctarget minv dmin Jc) (grad_dc maxgrad ctarget minv dmin Jd).

(** StandardScalingBase::DetermineScaling, IpNLPScaling.cpp:275: the option
    obj_scaling_factor is multiplied on top *)
Definition with_obj_factor (osf : T) (s : scaling) : scaling := SC (sf s * osf) (sx s) (sc s) (sd s).
(** NoNLPScalingObject, IpNLPScaling.cpp:640-662 *)
Definition no_scaling : scaling := SC one None None None.
(** TNLPAdapter::GetScalingParameters, IpTNLPAdapter.cpp:1997-2092. [xpos]: the kept
    variables (None: all of them), [cpos], [dpos]: rows of g, [nfix]: number of
    constraints added for fixed variables; the user's answer: objective factor,
    use_x_scaling and x_scaling, use_g_scaling and g_scaling *)
Definition user_scaling (xpos : option (list nat)) (cpos dpos : list nat) (nfix : nat)
  (obj : T) (usex : bool) (xs : list T) (useg : bool) (gs : list T) : scaling :=
  SC obj
     (if usex then Some (match xpos with Some pos => pick pos xs | None => xs end) else None)
     (if useg then Some (pick cpos gs ++ repeat one nfix) else None)
     (if useg then Some (pick dpos gs) else None).
End Model.
Arguments SC {T}. Arguments sf {T}. Arguments sx {T}. Arguments sc {T}. Arguments sd {T}.
Arguments NLP {T}. Arguments n_f {T}. Arguments n_grad {T}. Arguments n_c {T}. Arguments n_jc {T}.
Arguments n_d {T}. Arguments n_jd {T}. Arguments n_h {T}.
