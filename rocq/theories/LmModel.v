(** Model of the limited-memory quasi-Newton approximation of the Hessian:
    - /repo/src/Algorithm/IpLimMemQuasiNewtonUpdater.cpp (UpdateHessian and its helpers)
    - the parts of /repo/src/LinAlg/IpMultiVectorMatrix.cpp, IpDenseGenMatrix.cpp,
      IpDenseSymMatrix.cpp, IpLowRankUpdateSymMatrix.cpp used there

    Exact real arithmetic. Vectors are functions from indices below the dimension [n];
    a MultiVectorMatrix is the list of its columns, a null pointer is the empty list.
    L_ and SdotS_, which are updated incrementally in flat column-major arrays, are
    modelled as such arrays, with arbitrary contents before they are written; dense
    matrices computed at once by BLAS are functions of row and column. LAPACK's
    Cholesky factorisation, triangular inverse and eigenvalues are oracles. No
    restriction to a subspace (P_LM = NULL). In the restoration phase
    (update_for_resto_) the variant limited_memory_special_for_resto is not modelled. *)
From Coq Require Import List Bool Arith Reals Lia.
From Flocq Require Import Core.Raux.
Import ListNotations.
Local Open Scope R_scope.

Definition vec := nat -> R.
Fixpoint sumn (n : nat) (f : nat -> R) : R := match n with O => 0 | S k => sumn k f + f k end.
Definition dot (n : nat) (u v : vec) : R := sumn n (fun i => u i * v i).
Definition nrm2 (n : nat) (v : vec) : R := sqrt (dot n v v).
Fixpoint amax (n : nat) (v : vec) : R := match n with O => 0 | S k => Rmax (amax k v) (Rabs (v k)) end.
Definition vzero : vec := fun _ => 0.
Definition col (V : list vec) (i : nat) : vec := nth i V vzero.

(** flat arrays *)
Definition arr := nat -> R.
Definition writes (l : list (nat * R)) (a : arr) : arr :=
  fold_left (fun a p => fun k => if (k =? fst p)%nat then snd p else a k) l a.

(** AugmentMultiVector, 1021-1046; ShiftMultiVector, 1206-1222 *)
Definition augment_mv (V : list vec) (v : vec) : list vec := V ++ [v].
Definition shift_mv (V : list vec) (v : vec) : list vec := tl V ++ [v].
(** AugmentDenseVector, 1048-1078; ShiftDenseVector, 1224-1244 *)
Definition augment_dv (V : list R) (v : R) : list R := V ++ [v].
Definition shift_dv (V : list R) (v : R) : list R := tl V ++ [v].
(** AugmentLMatrix, 1080-1126; [ndim]: dimension of the old matrix *)
Definition augment_L (n ndim : nat) (V : arr) (S Y : list vec) (fresh : arr) : arr :=
  writes (flat_map (fun j => map (fun i => (i + j * (ndim + 1), V (i + j * ndim)%nat)%nat) (seq 0 ndim)) (seq 0 ndim)
       ++ map (fun j => ((ndim + j * (ndim + 1))%nat, dot n (col S ndim) (col Y j))) (seq 0 ndim)
       ++ map (fun i => ((i + ndim * (ndim + 1))%nat, 0)) (seq 0 (ndim + 1))) fresh.
(** ShiftLMatrix, 1246-1281 *)
Definition shift_L (n ndim : nat) (V : arr) (S Y : list vec) (fresh : arr) : arr :=
  writes (flat_map (fun j => map (fun i => (i + j * ndim, V (i + 1 + (j + 1) * ndim)%nat)%nat) (seq 0 (ndim - 1))) (seq 0 (ndim - 1))
       ++ map (fun j => ((ndim - 1 + j * ndim)%nat, dot n (col S (ndim - 1)) (col Y j))) (seq 0 (ndim - 1))
       ++ map (fun i => ((i + ndim * (ndim - 1))%nat, 0)) (seq 0 ndim)) fresh.
(** AugmentSdotSMatrix, 1128-1165: lower triangle *)
Definition augment_SS (n ndim : nat) (V : arr) (S : list vec) (fresh : arr) : arr :=
  writes (flat_map (fun j => map (fun i => (i + j * (ndim + 1), V (i + j * ndim)%nat)%nat) (seq j (ndim - j))) (seq 0 ndim)
       ++ map (fun j => ((ndim + j * (ndim + 1))%nat, dot n (col S ndim) (col S j))) (seq 0 (ndim + 1))) fresh.
(** ShiftSdotSMatrix, 1283-1310 *)
Definition shift_SS (n ndim : nat) (V : arr) (S : list vec) (fresh : arr) : arr :=
  writes (flat_map (fun j => map (fun i => (i + j * ndim, V (i + 1 + (j + 1) * ndim)%nat)%nat) (seq j (ndim - 1 - j))) (seq 0 (ndim - 1))
       ++ map (fun j => ((ndim - 1 + j * ndim)%nat, dot n (col S (ndim - 1)) (col S j))) (seq 0 ndim)) fresh.
(** RecalcY, RecalcD, RecalcL, 1384-1432. RecalcY's argument DRS is S_ at the call (913). *)
Definition recalc_Y (eta : R) (DRS Ypart : list vec) : list vec :=
  map (fun p => fun i => eta * fst p i + snd p i) (combine DRS Ypart).
Definition recalc_D (n : nat) (S Y : list vec) : list R := map (fun i => dot n (col S i) (col Y i)) (seq 0 (length S)).
Definition recalc_L (n : nat) (S Y : list vec) (fresh : arr) : arr :=
  let dim := length S in
  writes (flat_map (fun j => map (fun i => ((i + j * dim)%nat, 0)) (seq 0 (j + 1))
                          ++ map (fun i => ((i + j * dim)%nat, dot n (col S i) (col Y j))) (seq (j + 1) (dim - (j + 1)))) (seq 0 dim)) fresh.

(** internal data kept between calls (IpLimMemQuasiNewtonUpdater.hpp:150-300) *)
Record data := Data { d_mem : nat; d_S : list vec; d_Y : list vec; d_Ypart : list vec; d_D : list R; d_L : arr; d_SS : arr;
                      d_sigma : R; d_V : list vec; d_U : list vec }.
Definition set_Y d y := Data (d_mem d) (d_S d) y (d_Ypart d) (d_D d) (d_L d) (d_SS d) (d_sigma d) (d_V d) (d_U d).
Definition set_sigma d s := Data (d_mem d) (d_S d) (d_Y d) (d_Ypart d) (d_D d) (d_L d) (d_SS d) s (d_V d) (d_U d).
Definition set_VU d v u := Data (d_mem d) (d_S d) (d_Y d) (d_Ypart d) (d_D d) (d_L d) (d_SS d) (d_sigma d) v u.

(** UpdateInternalData, 817-925, regular phase. The arrays are NULL exactly when the
    memory was empty. *)
Definition update_data (n max_history : nat) (fresh : arr) (s y : vec) (d : data) : bool * data :=
  if (max_history =? 0)%nat then (false, d)
  else if (d_mem d <? max_history)%nat then
    let S := augment_mv (d_S d) s in
    let Y := augment_mv (d_Y d) y in
    (true, Data (d_mem d + 1) S Y (d_Ypart d) (augment_dv (d_D d) (dot n s y))
             (augment_L n (length (d_S d)) (d_L d) S Y fresh) (augment_SS n (length (d_S d)) (d_SS d) S fresh)
             (d_sigma d) (d_V d) (d_U d))
  else
    let S := shift_mv (d_S d) s in
    let Y := shift_mv (d_Y d) y in
    (false, Data (d_mem d) S Y (d_Ypart d) (shift_dv (d_D d) (dot n s y))
             (shift_L n (length (d_S d)) (d_L d) S Y fresh) (shift_SS n (length (d_S d)) (d_SS d) S fresh)
             (d_sigma d) (d_V d) (d_U d)).
(** the same in the restoration phase (856-919, not special): Y_, D_ and L_ are
    recalculated from Ypart_ *)
Definition update_data_resto (n max_history : nat) (fresh : arr) (eta : R) (s ypart : vec) (d : data) : bool * data :=
  if (max_history =? 0)%nat then (false, d)
  else
    let '(aug, mem, Sn, Yp, SS) :=
      if (d_mem d <? max_history)%nat then
        let S := augment_mv (d_S d) s in
        (true, (d_mem d + 1)%nat, S, augment_mv (d_Ypart d) ypart, augment_SS n (length (d_S d)) (d_SS d) S fresh)
      else
        let S := shift_mv (d_S d) s in
        (false, d_mem d, S, shift_mv (d_Ypart d) ypart, shift_SS n (length (d_S d)) (d_SS d) S fresh) in
    let Y := recalc_Y eta Sn Yp in
    (aug, Data mem Sn Y Yp (recalc_D n Sn Y) (recalc_L n Sn Y fresh) SS (d_sigma d) (d_V d) (d_U d)).

Inductive update_type := BFGS | SR1.
Inductive initialization := SCALAR1 | SCALAR2 | SCALAR3 | SCALAR4 | CONSTANT.
(** options, and LAPACK *)
Record options := Opts {
  o_max_history : nat; o_type : update_type; o_init : initialization; o_init_val : R; o_max_skipping : nat;
  o_sigma_max : R; o_sigma_min : R;
  o_eps : R;                                      (* machine precision *)
  o_chol : nat -> (nat -> nat -> R) -> option (nat -> nat -> R);
  o_inv : nat -> (nat -> nat -> R) -> nat -> nat -> R;  (* inverse of the transposed triangular factor *)
  o_eig : nat -> (nat -> nat -> R) -> (nat -> R) * (nat -> nat -> R);  (* eigenvalues, eigenvectors as columns *)
  o_fresh : arr }.

(** 496-515 and 565-585 *)
Definition sigma0 (o : options) (n : nat) (sTy : R) (s y : vec) : R :=
  match o_init o with
  | SCALAR1 => sTy / (nrm2 n s * nrm2 n s)
  | SCALAR2 => nrm2 n y * nrm2 n y / sTy
  | SCALAR3 => (sTy / (nrm2 n s * nrm2 n s) + nrm2 n y * nrm2 n y / sTy) / 2
  | SCALAR4 => sqrt (sTy / (nrm2 n s * nrm2 n s) * (nrm2 n y * nrm2 n y) / sTy)
  | CONSTANT => o_init_val o
  end.
(** CheckSkippingBFGS, 985-1019 *)
Definition skip_bfgs (o : options) (n : nat) (s y : vec) : bool :=
  Rle_bool (dot n s y) (sqrt (o_eps o) * nrm2 n s * nrm2 n y).

Definition at_ (k : nat) (A : arr) (i j : nat) : R := A (i + j * k)%nat.
(** the symmetric matrix whose lower triangle is stored *)
Definition symlow (A : nat -> nat -> R) (i j : nat) : R := if (j <=? i)%nat then A i j else A j i.

(** 411-500: V_ and U_ from the data of the BFGS update, given that V_ already has its
    new column; None: Cholesky factorisation failed *)
Definition ltilde (k : nat) (d : data) (i j : nat) : R := at_ k (d_L d) i j * (1 / sqrt (nth j (d_D d) 0)).
Definition bfgs_M (k : nat) (d : data) (i j : nat) : R :=
  sumn k (fun l => ltilde k d i l * ltilde k d j l) + d_sigma d * at_ k (d_SS d) i j.
Definition bfgs_U (o : options) (d : data) : option (list vec) :=
  let k := d_mem d in
  match o_chol o k (symlow (bfgs_M k d)) with
  | None => None
  | Some J =>
      let C := o_inv o k J in
      let Lbar := fun i j => sumn k (fun l => ltilde k d l i * C l j) in
      Some (map (fun j => fun r =>
        sumn (length (d_V d)) (fun i => col (d_V d) i r * Lbar i j) + d_sigma d * sumn (length (d_S d)) (fun i => col (d_S d) i r * C i j))
        (seq 0 k))
  end.
Definition project_sigma (o : options) (x : R) : R :=
  if Rlt_bool x (o_sigma_min o) || Rlt_bool (o_sigma_max o) x then Rmax (Rmin (o_sigma_max o) x) (o_sigma_min o) else x.
(** case BFGS, 345-500 (regular phase); true: skipping *)
Definition bfgs (o : options) (n : nat) (s y : vec) (d : data) : bool * data :=
  if skip_bfgs o n s y then (true, d)
  else
    let (augment, d) := update_data n (o_max_history o) (o_fresh o) s y d in
    let sTy := dot n s y in
    let d := set_sigma d (project_sigma o (sigma0 o n sTy s y)) in
    if (o_max_history o =? 0)%nat then (false, d)
    else
      let v := fun i => 1 / sqrt sTy * y i in
      let V := if augment then augment_mv (d_V d) v else shift_mv (d_V d) v in
      let d := set_VU d V (d_U d) in
      match bfgs_U o d with
      | None => (true, d)
      | Some U => (false, set_VU d V U)
      end.

(** 318-330: in the restoration phase [ypart] is the part from the constraints, and
    eta D_R s is added, D_R given by its diagonal *)
Definition y_resto (eta : R) (DR s ypart : vec) : vec := fun i => eta * s i * DR i + ypart i.
(** case BFGS in the restoration phase, not special (345-500 with the backup of 362-391);
    max_history > 0 *)
Definition bfgs_resto (o : options) (n : nat) (eta : R) (DR s ypart : vec) (d : data) : bool * data :=
  let y := y_resto eta DR s ypart in
  if skip_bfgs o n s y then (true, d)
  else
    let (augment, d1) := update_data_resto n (o_max_history o) (o_fresh o) eta s ypart d in
    if existsb (fun x => Rle_bool x 0) (d_D d1) then (true, d)
    else
      let sTy := dot n s y in
      let d2 := set_sigma d1 (project_sigma o (sigma0 o n sTy s y)) in
      let v := fun i => 1 / sqrt sTy * y i in
      let V := if augment then augment_mv (d_V d2) v else shift_mv (d_V d2) v in
      let d3 := set_VU d2 V (d_U d2) in
      match bfgs_U o d3 with
      | None => (true, d3)
      | Some U => (false, set_VU d3 V U)
      end.

(** SplitEigenvalues, 927-983 (with 1000 following): None: skip *)
Definition split_eigenvalues (k : nat) (E : nat -> R) (Q : nat -> nat -> R) : option (list vec * list vec) :=
  let nneg := length (filter (fun i => Rlt_bool (E i) 0) (seq 0 k)) in
  let emax := Rmax (Rabs (E 0%nat)) (Rabs (E (k - 1)%nat)) in
  if Req_bool emax 0 then None
  else
    let emin := if (nneg =? 0)%nat then E 0%nat
                else if (nneg =? k)%nat then - E (k - 1)%nat
                else Rmin (- E (nneg - 1)%nat) (E nneg) in
    if Rlt_bool (emin / emax) (1 / 1000000000000) then None
    else Some (map (fun j => fun i => Q i j / sqrt (- E j)) (seq 0 nneg),
               map (fun j => fun i => Q i (j + nneg)%nat / sqrt (E (j + nneg)%nat)) (seq 0 (k - nneg))).
(** 594-616 with SpecialAddForLMSR1 *)
Definition sr1_Z (k : nat) (d : data) (i j : nat) : R :=
  - d_sigma d * at_ k (d_SS d) i j + (if (i =? j)%nat then nth i (d_D d) 0 else at_ k (d_L d) i j).
(** 636-676: the columns of Vtilde * Q *)
Definition sr1_cols (d : data) (Q : list vec) : list vec :=
  let Vt := fun j r => - d_sigma d * col (d_S d) j r + col (d_Y d) j r in
  map (fun q => fun r => sumn (length (d_Y d)) (fun j => Vt j r * q j)) Q.
(** case SR1, 502-680. [backup]: what StoreInternalDataBackup stored; [regu]:
    info_regu_x() > 0. Result: skipping, retroactive_skip, data, backup *)
Definition sr1 (o : options) (n : nat) (regu : bool) (s y : vec) (d backup : data) : bool * bool * data * data :=
  let d := if regu then backup else d in
  let backup := d in
  let (_, d) := update_data n (o_max_history o) (o_fresh o) s y d in
  let d := set_sigma d (if (d_mem d =? 1)%nat then o_init_val o
                        else sigma0 o n (Rmax (1 / 100000000) (Rabs (dot n s y))) s y) in
  if (o_max_history o =? 0)%nat then (false, regu, d, backup)
  else
    let k := d_mem d in
    let (E, Q) := o_eig o k (symlow (sr1_Z k d)) in
    match split_eigenvalues k E Q with
    | None => (true, regu, backup, backup)
    | Some (Qminus, Qplus) => (false, regu, set_VU d (sr1_cols d Qplus) (sr1_cols d Qminus), backup)
    end.

(** the information at an iterate: point, objective gradient, products of a vector with
    the transposed Jacobians, current multipliers, info_regu_x() > 0 *)
Record iter := Iter { i_x : vec; i_grad : vec; i_jcT : vec -> vec; i_jdT : vec -> vec; i_yc : vec; i_yd : vec; i_regu : bool }.
(** the matrix handed to the algorithm, W = diag(sigma) + V V^T - U U^T (SetW, 1338-1382) *)
Record lowrank := LR { w_diag : R; w_V : list vec; w_U : list vec }.
Record state := State { st_data : data; st_backup : data; st_last : option iter; st_skipped : nat; st_W : option lowrank }.
Definition setW (d : data) : lowrank := LR (d_sigma d) (d_V d) (d_U d).
(** InitializeImpl, 97-138; [garbage]: the backup fields are not initialised *)
Definition nothing (sigma : R) (fresh : arr) : data := Data 0 [] [] [] [] fresh fresh sigma [] [].
Definition initialize (o : options) (garbage : data) : state := State (nothing (-1) (o_fresh o)) garbage None 0 None.
(** 275-316: change of the gradient of the Lagrangian function *)
Definition s_new (last it : iter) : vec := fun i => i_x it i - i_x last i.
Definition y_new (last it : iter) : vec := fun i =>
  (i_grad it i - i_grad last i) + (i_jcT it (i_yc it) i + i_jdT it (i_yd it) i)
  - i_jcT last (i_yc it) i - i_jdT last (i_yd it) i.
(** UpdateHessian, 140-712, regular phase *)
Definition update_hessian (o : options) (n : nat) (it : iter) (st : state) : state :=
  let reset := State (nothing (o_init_val o) (o_fresh o)) (st_backup st) (Some it) 0 (Some (setW (nothing (o_init_val o) (o_fresh o)))) in
  match st_last st with
  | None => reset
  | Some last =>
      if (o_max_skipping o <=? st_skipped st)%nat then reset
      else
        let s := s_new last it in
        let y := y_new last it in
        let '(skipping, retro, d, backup) :=
          if Rlt_bool (amax n s) (100 * o_eps o) then (true, false, st_data st, st_backup st)
          else match o_type o with
               | BFGS => let (sk, d) := bfgs o n s y (st_data st) in (sk, false, d, st_backup st)
               | SR1 => sr1 o n (i_regu it) s y (st_data st) (st_backup st)
               end in
        if skipping then State d backup (Some it) (st_skipped st + 1) (st_W st)
        else State d backup (Some it) (if retro then st_skipped st + 1 else 0)%nat (Some (setW d))
  end.
(** the product of W with a vector: LowRankUpdateSymMatrix::MultVectorImpl,
    IpLowRankUpdateSymMatrix.cpp:31-68, alpha = 1, beta = 0; LRMultVector of V_ and U_ *)
Definition lr_mult (n : nat) (W : lowrank) (x : vec) : vec := fun i =>
  w_diag W * x i + sumn (length (w_V W)) (fun j => dot n (col (w_V W) j) x * col (w_V W) j i)
  - sumn (length (w_U W)) (fun j => dot n (col (w_U W) j) x * col (w_U W) j i).
(** a sequence of calls, first call first *)
Definition run (o : options) (n : nat) (garbage : data) (its : list iter) : state :=
  fold_left (fun st it => update_hessian o n it st) its (initialize o garbage).
