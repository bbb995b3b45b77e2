(** Model of src/Algorithm/IpIpoptCalculatedQuantities.cpp: every quantity the algorithm and
    the user callbacks read from the iterates, with the caches in front of it.

    Numbers are the reals: rounding is not modelled. Vector and matrix operations are given by
    what they compute element by element (C20, C23, C25, C54 are about the classes that do it).

    - A tagged object is an element of an append-only [store]; its tag is its index. Vectors
      inside the iterates are const, so a tag determines the values (TaggedObject gives every
      object a fresh tag and a changed object a new one, C03-C06).
    - [curr_X] and [trial_X] are one definition with a flag [w] (false: curr, true: trial): the
      bodies of the two C++ functions are equal up to exchanging the words "curr" and "trial";
      the only differences (in the trial_slack functions) are modelled. In the same way the four bounds of
      the slack and complementarity functions are one definition over [bd].
    - Temporary vectors (Tmp_x() and so on) are values. Arguments of a call are evaluated from
      left to right.
    - The options and the positions of the bounds (Px_L, Px_U, Pd_L, Pd_U) are constant: one
      Initialize, then any number of calls. *)
From Coq Require Import Reals List Arith Bool.
Import ListNotations.
Open Scope R_scope.

(** * Vectors: what the operations of IpVector.hpp compute *)
Definition vec := list R.
Definition el (v : vec) (i : nat) : R := nth i v 0.
Definition mk (n : nat) (f : nat -> R) : vec := map f (seq 0 n).
Definition dim (v : vec) : nat := length v.
Definition vset (n : nat) (a : R) : vec := mk n (fun _ => a).
(** Scal, AddScalar, ElementWiseAbs, ElementWiseSgn, ElementWiseReciprocal *)
Definition sgn (x : R) : R := if Rlt_dec 0 x then 1 else if Rlt_dec x 0 then -1 else 0.
Definition vmap (f : R -> R) (v : vec) : vec := mk (dim v) (fun i => f (el v i)).
(** Axpy, AddTwoVectors(.,.,.,.,0), ElementWiseMultiply/Divide/Max/Min/Select *)
Definition vmap2 (f : R -> R -> R) (v w : vec) : vec := mk (dim v) (fun i => f (el v i) (el w i)).
Definition asum (v : vec) : R := fold_left (fun a x => a + Rabs x) v 0.
Definition ssq (v : vec) : R := fold_left (fun a x => a + x * x) v 0.
Definition nrm2 (v : vec) : R := sqrt (ssq v).
Definition amax (v : vec) : R := fold_left (fun a x => Rmax a (Rabs x)) v 0.
Definition sumlogs (v : vec) : R := fold_left (fun a x => a + ln x) v 0.
Definition dot (v w : vec) : R := fold_left (fun a i => a + el v i * el w i) (seq 0 (dim v)) 0.
Definition vmin (v : vec) : R := fold_left Rmin v (el v 0).
(** IpDenseVector.cpp 1325-1390 (FracToBoundImpl) *)
Definition frac_to_bound (x delta : vec) (tau : R) : R :=
  fold_left (fun a i => if Rlt_dec (el delta i) 0 then Rmin a (- tau / el delta i * el x i) else a) (seq 0 (dim x)) 1.

(** * Matrices *)
Record mat := Mat { mr : nat; mc : nat; ment : nat -> nat -> R }.
Definition lsum (n : nat) (f : nat -> R) : R := fold_left (fun a i => a + f i) (seq 0 n) 0.
(** MultVector(alpha, x, beta, y), TransMultVector(alpha, x, beta, y) *)
Definition mmul (J : mat) (alpha : R) (x : vec) (beta : R) (y : vec) : vec :=
  mk (mr J) (fun i => beta * el y i + alpha * lsum (mc J) (fun j => ment J i j * el x j)).
Definition mtmul (J : mat) (alpha : R) (x : vec) (beta : R) (y : vec) : vec :=
  mk (mc J) (fun j => beta * el y j + alpha * lsum (mr J) (fun i => ment J i j * el x i)).
(** ExpansionMatrix with positions [pos] (IpExpansionMatrix.cpp 26-164): MultVector, TransMultVector, AddMSinvZ *)
Fixpoint vupd (v : vec) (i : nat) (a : R) : vec :=
  match v, i with [], _ => [] | _ :: v, O => a :: v | x :: v, S i => x :: vupd v i a end.
Definition pmul (pos : list nat) (alpha : R) (x : vec) (beta : R) (y : vec) : vec :=
  fold_left (fun y k => vupd y (nth k pos O) (el y (nth k pos O) + alpha * el x k)) (seq 0 (length pos)) (vmap (Rmult beta) y).
Definition ptmul (pos : list nat) (alpha : R) (x : vec) (beta : R) (y : vec) : vec :=
  mk (length pos) (fun k => beta * el y k + alpha * el x (nth k pos O)).
Definition pmsinvz (pos : list nat) (alpha : R) (s z x : vec) : vec :=
  pmul pos alpha (vmap2 Rdiv z s) 1 x.

(** * The NLP (IpIpoptNLP.hpp) and the options *)
Inductive norm := N1 | N2 | NMax.
Record nlp := NLP {
  n_x : nat; n_s : nat; n_c : nat;
  pxL : list nat; pxU : list nat; pdL : list nat; pdU : list nat;
  dep_mu : bool;                                    (* objective_depends_on_mu() *)
  fn_f : vec -> R; fn_f_mu : vec -> R -> R;
  fn_g : vec -> vec; fn_g_mu : vec -> R -> vec;
  fn_c : vec -> vec; fn_d : vec -> vec;
  fn_Jc : vec -> mat; fn_Jd : vec -> mat;
  fn_h : vec -> R -> vec -> vec -> mat; fn_h_mu : vec -> R -> vec -> vec -> R -> mat;
  (* NLP_scaling(): factors, 1 where nothing is scaled; IpNLPScaling.cpp *)
  so : R; sx : nat -> R; sc : nat -> R; sd : nat -> R; have_x_scaling : bool;
  orig_xL : option vec; orig_xU : option vec         (* OrigIpoptNLP::orig_x_L(), unset: None *)
}.
Record opts := Opts {
  s_max : R; kappa_d : R; slack_move : R; mu_target : R; cv_norm : norm;
  mach_eps : R; mach_tiny : R  (* numeric_limits<Number>::epsilon() and min() *)
}.
Inductive bd := XL | XU | SL | SU.

(** * State *)
(** IpIteratesVector.hpp: the eight parts, as tags *)
Record iter := It { i_x : nat; i_s : nat; i_yc : nat; i_yd : nat; i_zL : nat; i_zU : nat; i_vL : nat; i_vU : nat }.
(** the caches, constructor lines 28-127 *)
Inductive ncid :=
| NC_f (w : bool) | NC_bar (w : bool) | NC_nlpcv | NC_uncv (w : bool) | NC_unobv | NC_obv
| NC_pinf (w : bool) | NC_dinf (w : bool) | NC_undinf | NC_compl (w : bool) | NC_centr | NC_nlperr
| NC_unnlperr | NC_barerr | NC_pde (w : bool) | NC_pfrac | NC_dfrac | NC_avrg (w : bool) | NC_gbtd.
Inductive vcid :=
| VC_slack (w : bool) (b : bd) | VC_gradf (w : bool) | VC_gbx | VC_gbs | VC_gkx | VC_gks
| VC_c (w : bool) | VC_d (w : bool) | VC_dms (w : bool) | VC_jcv | VC_jdv | VC_jcT (w : bool) | VC_jdT (w : bool)
| VC_glx (w : bool) | VC_gls (w : bool) | VC_gldx | VC_glds | VC_compl (w : bool) (b : bd) | VC_relc (b : bd)
| VC_oxL | VC_oxU | VC_sigx | VC_sigs.
Inductive mcid := MC_jc (w : bool) | MC_jd (w : bool) | MC_h.
Definition ncid_dec (a b : ncid) : {a = b} + {a <> b}.
Proof. decide equality; apply Bool.bool_dec. Defined.
Definition vcid_dec (a b : vcid) : {a = b} + {a <> b}.
Proof. decide equality; try apply Bool.bool_dec; decide equality. Defined.
Definition mcid_dec (a b : mcid) : {a = b} + {a <> b}.
Proof. decide equality; apply Bool.bool_dec. Defined.
Definition nsize (c : ncid) : nat :=
  match c with
  | NC_f w | NC_bar w => if w then 5 else 2
  | NC_nlpcv => 3 | NC_uncv _ => 3 | NC_unobv => 1 | NC_obv => 1
  | NC_pinf _ => 3 | NC_dinf _ => 3 | NC_undinf => 3 | NC_compl _ => 6 | NC_centr => 1 | NC_nlperr => 1
  | NC_unnlperr => 1 | NC_barerr => 1 | NC_pde w => if w then 3 else 1 | NC_pfrac => 5 | NC_dfrac => 5
  | NC_avrg _ => 1 | NC_gbtd => 1
  end%nat.
Definition vsize (c : vcid) : nat :=
  match c with
  | VC_gradf w => if w then 1 else 2
  | VC_c w | VC_d w => if w then 2 else 1
  | VC_jcT w | VC_jdT w => if w then 1 else 2
  | VC_gldx | VC_glds => 0
  | _ => 1
  end%nat.

Definition key := (list nat * list R)%type.
Definition key_dec (a b : key) : {a = b} + {a <> b}.
Proof. decide equality; [apply (list_eq_dec Req_EM_T)|apply (list_eq_dec Nat.eq_dec)]. Defined.

Record st := St {
  store : list vec;
  curr : iter; trial : iter; delta : iter;       (* IpIpoptData.hpp *)
  mu : R;                                        (* IpoptData::curr_mu() *)
  bnd : bd -> vec;                               (* IpoptNLP::x_L(), x_U(), d_L(), d_U() *)
  nca : ncid -> list (key * R); vca : vcid -> list (key * nat); mca : mcid -> list (key * mat);
  pca : list (key * (nat * nat));                (* unscaled_curr_orig_x_LU_viol_cache_, size 1 *)
  damp : option (vec * vec * vec * vec);         (* dampind_x_L_, ... *)
  nadj : bd -> Z                                 (* num_adjusted_slack_x_L_ and the others *)
}.
Definition val (s : st) (t : nat) : vec := nth t (store s) [].

Definition M (A : Type) := st -> A * st.
Definition ret {A} (a : A) : M A := fun s => (a, s).
Definition bind {A B} (m : M A) (f : A -> M B) : M B := fun s => let (a, s') := m s in f a s'.
Notation "'do' x <- e ; f" := (bind e (fun x => f)) (at level 200, x name, e at level 100, f at level 200).
Definition gets {A} (f : st -> A) : M A := fun s => (f s, s).

Definition set_store (s : st) l := St l (curr s) (trial s) (delta s) (mu s) (bnd s) (nca s) (vca s) (mca s) (pca s) (damp s) (nadj s).
Definition set_nca (s : st) c l := St (store s) (curr s) (trial s) (delta s) (mu s) (bnd s)
  (fun c' => if ncid_dec c' c then l else nca s c') (vca s) (mca s) (pca s) (damp s) (nadj s).
Definition set_vca (s : st) c l := St (store s) (curr s) (trial s) (delta s) (mu s) (bnd s)
  (nca s) (fun c' => if vcid_dec c' c then l else vca s c') (mca s) (pca s) (damp s) (nadj s).
Definition set_mca (s : st) c l := St (store s) (curr s) (trial s) (delta s) (mu s) (bnd s)
  (nca s) (vca s) (fun c' => if mcid_dec c' c then l else mca s c') (pca s) (damp s) (nadj s).
Definition set_pca (s : st) l := St (store s) (curr s) (trial s) (delta s) (mu s) (bnd s)
  (nca s) (vca s) (mca s) l (damp s) (nadj s).
Definition set_damp (s : st) d := St (store s) (curr s) (trial s) (delta s) (mu s) (bnd s)
  (nca s) (vca s) (mca s) (pca s) d (nadj s).
Definition set_nadj (s : st) b n := St (store s) (curr s) (trial s) (delta s) (mu s) (bnd s)
  (nca s) (vca s) (mca s) (pca s) (damp s)
  (fun b' => if match b, b' with XL, XL | XU, XU | SL, SL | SU, SU => true | _, _ => false end then n else nadj s b').

(** a new tagged vector *)
Definition newv (v : vec) : M nat := fun s => (length (store s), set_store s (store s ++ [v])).
Definition rd (t : nat) : M vec := gets (fun s => val s t).

(** IpCachedResults.hpp: GetCachedResult (first entry with the same tags and scalars),
    AddCachedResult (to the front, the last one is dropped when there are too many) *)
Fixpoint look {A} (l : list (key * A)) (k : key) : option A :=
  match l with [] => None | (k', a) :: l => if key_dec k' k then Some a else look l k end.
Definition nget (c : ncid) (k : key) : M (option R) := gets (fun s => look (nca s c) k).
Definition vget (c : vcid) (k : key) : M (option nat) := gets (fun s => look (vca s c) k).
Definition mget (c : mcid) (k : key) : M (option mat) := gets (fun s => look (mca s c) k).
Definition nadd (c : ncid) (k : key) (a : R) : M unit := fun s => (tt, set_nca s c (firstn (nsize c) ((k, a) :: nca s c))).
Definition vadd (c : vcid) (k : key) (t : nat) : M unit := fun s => (tt, set_vca s c (firstn (vsize c) ((k, t) :: vca s c))).
Definition madd (c : mcid) (k : key) (a : mat) : M unit := fun s => (tt, set_mca s c (firstn 1 ((k, a) :: mca s c))).

(** if( !c1.GetCachedResult(result, k) ) { if( !c2.GetCachedResult(result, k) ) { result = comp } c1.AddCachedResult(result, kadd) } *)
Definition qn2 (c1 : ncid) (c2 : option ncid) (k kadd : key) (comp : M R) : M R :=
  do r <- nget c1 k;
  match r with
  | Some v => ret v
  | None =>
      do r2 <- (match c2 with Some c2 => nget c2 k | None => ret None end);
      do v <- (match r2 with Some v => ret v | None => comp end);
      do u <- nadd c1 kadd v; ret v
  end.
Definition qn c1 c2 k comp := qn2 c1 c2 k k comp.
(** [addit]: false where the C++ code calls GetCachedResult again instead of AddCachedResult *)
Definition qv2 (addit : bool) (c1 : vcid) (c2 : option vcid) (k : key) (comp : M nat) : M nat :=
  do r <- vget c1 k;
  match r with
  | Some v => ret v
  | None =>
      do r2 <- (match c2 with Some c2 => vget c2 k | None => ret None end);
      do v <- (match r2 with Some v => ret v | None => comp end);
      if addit then do u <- vadd c1 k v; ret v else ret v
  end.
Definition qv c1 c2 k comp := qv2 true c1 c2 k comp.
Definition qm (c1 : mcid) (c2 : option mcid) (k : key) (comp : M mat) : M mat :=
  do r <- mget c1 k;
  match r with
  | Some v => ret v
  | None =>
      do r2 <- (match c2 with Some c2 => mget c2 k | None => ret None end);
      do v <- (match r2 with Some v => ret v | None => comp end);
      do u <- madd c1 k v; ret v
  end.

Section CQ.
Variables (P : nlp) (o : opts).

Definition itw (w : bool) (s : st) : iter := if w then trial s else curr s.
(** ip_data_->curr()->x() and so on: the object *)
Definition tg (w : bool) (c : iter -> nat) : M nat := gets (fun s => c (itw w s)).
Definition cmu : M R := gets mu.

(** the part of the iterate a bound is about, its positions, its multiplier *)
Definition prim (b : bd) : iter -> nat := match b with XL | XU => i_x | SL | SU => i_s end.
Definition pos (b : bd) : list nat := match b with XL => pxL P | XU => pxU P | SL => pdL P | SU => pdU P end.
Definition mult (b : bd) : iter -> nat := match b with XL => i_zL | XU => i_zU | SL => i_vL | SU => i_vU end.

(** CalcSlack_L, CalcSlack_U: 238-266 *)
Definition calc_slack (b : bd) (x xb : vec) : vec :=
  match b with
  | XL | SL => ptmul (pos b) 1 x (-1) xb
  | XU | SU => ptmul (pos b) (-1) x 1 xb
  end.
(** CalculateSafeSlack: 455-537; the new slack and the number of corrected elements *)
Definition safe_slack (m : R) (slack bound multiplier : vec) : vec * Z :=
  if Nat.eqb (dim slack) 0 then (slack, 0%Z) else
  let min_slack := vmin slack in
  let s_min := mach_eps o * Rmin 1 m in
  let s_min := if Req_EM_T s_min 0 then mach_tiny o else s_min in
  if Rlt_dec min_slack s_min then
    let t := vmap (fun a => a + - s_min) slack in
    let t := vmap sgn t in
    let t := vmap2 Rmin t (vset (dim t) 0) in
    let t := vmap (Rmult (-1)) t in
    let retval := Int_part (asum t) in
    let slack := vmap2 Rmax slack (vset (dim t) 0) in
    let t2 := vset (dim t) m in
    let t2 := vmap2 Rdiv t2 multiplier in
    let t2 := vmap2 Rmax t2 (vset (dim t) s_min) in
    let t2 := vmap2 (fun a b => a + -1 * b) t2 slack in
    let t := vmap2 (fun a b => if Req_EM_T a 0 then a else a * b) t t2 in      (* ElementWiseSelect *)
    let t := vmap2 (fun a b => a + 1 * b) t slack in
    let t_max := vset (dim t) 1 in
    let t_max := vmap2 Rmax t_max (vmap Rabs bound) in
    let t_max := vmap2 (fun a b => 1 * b + slack_move o * a) t_max slack in    (* AddOneVector(1, slack, slack_move_) *)
    let t := vmap2 Rmin t t_max in
    (t, retval)
  else (slack, 0%Z).
Definition put_nadj (b : bd) (n : Z) : M unit := fun s => (tt, set_nadj s b n).

(** curr_slack_x_L, ..., curr_slack_s_U: 268-356; trial_slack_x_L, ..., trial_slack_s_U: 358-453 *)
Definition cq_slack (w : bool) (b : bd) : M nat :=
  do u <- (if w then put_nadj b 0 else ret tt);
  do t <- tg w (prim b);
  qv (VC_slack w b) (Some (VC_slack (negb w) b)) ([t], [])
    (do x <- rd t; do xb <- gets (fun s => bnd s b);
     do tm <- tg false (mult b); do m <- rd tm; do amu <- cmu;
     let r := safe_slack amu (calc_slack b x xb) xb m in
     do u <- put_nadj b (snd r);
     newv (fst r)).
(** 539-556 *)
Definition adjusted_trial_slacks : M Z := gets (fun s => (nadj s XL + nadj s XU + nadj s SL + nadj s SU)%Z).
Definition reset_adjusted : M unit :=
  do u <- put_nadj XL 0; do u <- put_nadj XU 0; do u <- put_nadj SL 0; put_nadj SU 0.

(** 559-599, 606-646: sdeps is the barrier parameter or -1 *)
Definition mudep (m : R) : list R := [if dep_mu P then m else -1].
Definition cq_f (w : bool) : M R :=
  do t <- tg w i_x; do m <- cmu;
  qn (NC_f w) (Some (NC_f (negb w))) ([t], mudep m)
    (do x <- rd t; ret (if dep_mu P then fn_f_mu P x m else fn_f P x)).
(** unapply_obj_scaling *)
Definition un_obj (r : R) : R := r / so P.
(** 601, 648 *)
Definition cq_unscaled_f (w : bool) : M R := do r <- cq_f w; ret (un_obj r).
(** 653-728 *)
Definition cq_grad_f (w : bool) : M nat :=
  do t <- tg w i_x; do m <- cmu;
  qv (VC_gradf w) (Some (VC_gradf (negb w))) ([t], mudep m)
    (do x <- rd t; newv (if dep_mu P then fn_g_mu P x m else fn_g P x)).

(** ComputeDampingIndicators: 1044-1090 *)
Definition damp_LU (n : nat) (pL pU : list nat) : vec * vec :=
  let tmp := pmul pL 1 (vset (length pL) 1) 0 (vset n 0) in
  let tmp := pmul pU (-1) (vset (length pU) 1) 1 tmp in
  (ptmul pL 1 tmp 0 [], ptmul pU (-1) tmp 0 []).
Definition cq_damp : M (vec * vec * vec * vec) :=
  do d <- gets damp;
  match d with
  | Some d => ret d
  | None =>
      let dx := damp_LU (n_x P) (pxL P) (pxU P) in
      let ds := damp_LU (n_s P) (pdL P) (pdU P) in
      let r := (fst dx, snd dx, fst ds, snd ds) in
      fun s => (r, set_damp s (Some r))
  end.

(** CalcBarrierTerm: 732-789 *)
Definition damp_term (m : R) (slack ind : vec) : R := kappa_d o * m * asum (vmap2 Rmult slack ind).
Definition calc_barrier_term (m : R) (xL xU sL sU : vec) : M R :=
  let r := (0 + sumlogs xL + sumlogs xU + sumlogs sL + sumlogs sU) * (- m) in
  if Rlt_dec 0 (kappa_d o) then
    do d <- cq_damp;
    let '(dxL, dxU, dsL, dsU) := d in
    ret (r + damp_term m xL dxL + damp_term m xU dxU + damp_term m sL dsL + damp_term m sU dsU)
  else ret r.
(** 791-857 *)
Definition cq_barrier_obj (w : bool) : M R :=
  do tx <- tg w i_x; do ts <- tg w i_s; do m <- cmu;
  qn (NC_bar w) (Some (NC_bar (negb w))) ([tx; ts], [m])
    (do f <- cq_f w;
     do t1 <- cq_slack w XL; do t2 <- cq_slack w XU; do t3 <- cq_slack w SL; do t4 <- cq_slack w SU;
     do a <- rd t1; do b <- rd t2; do c <- rd t3; do d <- rd t4;
     do r <- calc_barrier_term m a b c d;
     ret (f + r)).
(** curr_grad_barrier_obj_x: 859-910 *)
Definition cq_grad_barrier_x : M nat :=
  do tx <- tg false i_x; do m <- cmu;
  qv VC_gbx None ([tx], [m])
    (do tgf <- cq_grad_f false; do g <- rd tgf;
     do t1 <- cq_slack false XL; do a <- rd t1;
     do t2 <- cq_slack false XU; do b <- rd t2;
     let tmp := pmsinvz (pxL P) (- m) a (vset (length (pxL P)) 1) g in
     let tmp := pmsinvz (pxU P) m b (vset (length (pxU P)) 1) tmp in
     if Rlt_dec 0 (kappa_d o) then
       do d <- cq_damp;
       let '(dxL, dxU, dsL, dsU) := d in
       newv (pmul (pxU P) (- kappa_d o * m) dxU 1 (pmul (pxL P) (kappa_d o * m) dxL 1 tmp))
     else newv tmp).
(** grad_kappa_times_damping_x: 912-949 (Px_L and Px_U are constant objects: only kappa_d_ is left in the key) *)
Definition cq_grad_kappa_x : M nat :=
  qv VC_gkx None ([], [kappa_d o])
    (if Rlt_dec 0 (kappa_d o) then
       do d <- cq_damp;
       let '(dxL, dxU, dsL, dsU) := d in
       newv (pmul (pxU P) (- kappa_d o) dxU 1 (pmul (pxL P) (kappa_d o) dxL 0 (vset (n_x P) 0)))
     else newv (vset (n_x P) 0)).
(** curr_grad_barrier_obj_s: 951-1003 *)
Definition cq_grad_barrier_s : M nat :=
  do ts <- tg false i_s; do m <- cmu;
  qv VC_gbs None ([ts], [m])
    (do t1 <- cq_slack false SL; do a <- rd t1;
     let tmpL := vmap2 Rdiv (vset (length (pdL P)) (- m)) a in
     let tmp := pmul (pdL P) 1 tmpL 0 (vset (n_s P) 0) in
     do t2 <- cq_slack false SU; do b <- rd t2;
     let tmp := pmsinvz (pdU P) m b (vset (length (pdU P)) 1) tmp in
     if Rlt_dec 0 (kappa_d o) then
       do d <- cq_damp;
       let '(dxL, dxU, dsL, dsU) := d in
       newv (pmul (pdU P) (- kappa_d o * m) dsU 1 (pmul (pdL P) (kappa_d o * m) dsL 1 tmp))
     else newv tmp).
(** grad_kappa_times_damping_s: 1005-1042 *)
Definition cq_grad_kappa_s : M nat :=
  qv VC_gks None ([], [kappa_d o])
    (if Rlt_dec 0 (kappa_d o) then
       do d <- cq_damp;
       let '(dxL, dxU, dsL, dsU) := d in
       newv (pmul (pdU P) (- kappa_d o) dsU 1 (pmul (pdL P) (kappa_d o) dsL 0 (vset (n_s P) 0)))
     else newv (vset (n_s P) 0)).

(** 1098-1137 *)
Definition cq_c (w : bool) : M nat :=
  do t <- tg w i_x;
  qv (VC_c w) (Some (VC_c (negb w))) ([t], []) (do x <- rd t; newv (fn_c P x)).
(** unapply_vector_scaling_c, _d, _x; apply_vector_scaling_d, _x *)
Definition un_c (v : vec) : vec := mk (dim v) (fun i => el v i / sc P i).
Definition un_d (v : vec) : vec := mk (dim v) (fun i => el v i / sd P i).
Definition un_x (v : vec) : vec := mk (dim v) (fun i => el v i / sx P i).
Definition ap_d (v : vec) : vec := mk (dim v) (fun i => el v i * sd P i).
Definition ap_x (v : vec) : vec := mk (dim v) (fun i => el v i * sx P i).
(** IpNLPScaling.cpp 195-225 *)
Definition un_grad_obj (v : vec) : vec :=
  let df := un_obj 1 in
  if Req_EM_T df 1 then ap_x v else vmap (Rmult df) (ap_x v).
(** 1116, 1139 *)
Definition cq_unscaled_c (w : bool) : M nat := do t <- cq_c w; do v <- rd t; newv (un_c v).
(** 1144-1183 *)
Definition cq_d (w : bool) : M nat :=
  do t <- tg w i_x;
  qv (VC_d w) (Some (VC_d (negb w))) ([t], []) (do x <- rd t; newv (fn_d P x)).
(** 1162 *)
Definition cq_unscaled_d : M nat := do t <- cq_d false; do v <- rd t; newv (un_d v).
(** 1185-1229 *)
Definition cq_d_minus_s (w : bool) : M nat :=
  do tx <- tg w i_x; do ts <- tg w i_s;
  qv (VC_dms w) (Some (VC_dms (negb w))) ([tx; ts], [])
    (do td <- cq_d w; do d <- rd td; do s <- rd ts; newv (vmap2 (fun a b => 1 * a + -1 * b) d s)).
(** 1231-1301 *)
Definition cq_jac_c (w : bool) : M mat :=
  do t <- tg w i_x;
  qm (MC_jc w) (Some (MC_jc (negb w))) ([t], []) (do x <- rd t; ret (fn_Jc P x)).
Definition cq_jac_d (w : bool) : M mat :=
  do t <- tg w i_x;
  qm (MC_jd w) (Some (MC_jd (negb w))) ([t], []) (do x <- rd t; ret (fn_Jd P x)).
(** 1303-1343 *)
Definition cq_jac_c_times (tv : nat) : M nat :=
  do t <- tg false i_x;
  qv VC_jcv None ([t; tv], [])
    (do J <- cq_jac_c false; do v <- rd tv; newv (mmul J 1 v 0 (vset (n_c P) 0))).
Definition cq_jac_d_times (tv : nat) : M nat :=
  do t <- tg false i_x;
  qv VC_jdv None ([t; tv], [])
    (do J <- cq_jac_d false; do v <- rd tv; newv (mmul J 1 v 0 (vset (n_s P) 0))).
(** 1373-1466 *)
Definition cq_jac_cT_times (w : bool) (tv : nat) : M nat :=
  do t <- tg w i_x;
  qv (VC_jcT w) (Some (VC_jcT (negb w))) ([t; tv], [])
    (do J <- cq_jac_c w; do v <- rd tv; newv (mtmul J 1 v 0 (vset (n_x P) 0))).
Definition cq_jac_dT_times (w : bool) (tv : nat) : M nat :=
  do t <- tg w i_x;
  qv (VC_jdT w) (Some (VC_jdT (negb w))) ([t; tv], [])
    (do J <- cq_jac_d w; do v <- rd tv; newv (mtmul J 1 v 0 (vset (n_x P) 0))).
(** 1345-1371 *)
Definition cq_jac_cT_times_y (w : bool) : M nat := do ty <- tg w i_yc; cq_jac_cT_times w ty.
Definition cq_jac_dT_times_y (w : bool) : M nat := do ty <- tg w i_yd; cq_jac_dT_times w ty.

(** (Number) NormType: the enumeration of IpIpoptCalculatedQuantities.hpp *)
Definition nnum (t : norm) : R := match t with N1 => 0 | N2 => 1 | NMax => 2 end.
(** CalcNormOfType with two vectors: 2514-2533 *)
Definition calc_norm2 (t : norm) (a b : vec) : R :=
  match t with
  | N1 => asum a + asum b
  | N2 => sqrt (nrm2 a * nrm2 a + nrm2 b * nrm2 b)
  | NMax => Rmax (amax a) (amax b)
  end.
(** CalcNormOfType with a list: 2535-2568 *)
Definition calc_norm (t : norm) (vs : list vec) : R :=
  match t with
  | N1 => fold_left (fun r v => r + asum v) vs 0
  | N2 => sqrt (fold_left (fun r v => r + nrm2 v * nrm2 v) vs 0)
  | NMax => fold_left (fun r v => Rmax r (amax v)) vs 0
  end.

(** curr_nlp_constraint_violation: 1482-1525 *)
Definition cq_nlp_cv (t : norm) : M R :=
  do tx <- tg false i_x;
  qn NC_nlpcv None ([tx], [nnum t])
    (do tc <- cq_c false; do c <- rd tc; do td <- cq_d false; do d <- rd td;
     do dL <- gets (fun s => bnd s SL); do dU <- gets (fun s => bnd s SU);
     let vL := ptmul (pdL P) (-1) d 1 dL in
     let vL := vmap2 Rmax vL (vset (dim vL) 0) in
     let vU := ptmul (pdU P) (-1) d 1 dU in
     let vU := vmap2 Rmin vU (vset (dim vU) 0) in
     ret (calc_norm t [c; vL; vU])).
(** unscaled_curr_nlp_constraint_violation: 1527-1588, unscaled_trial_nlp_constraint_violation: 1881-1946 *)
Definition cq_unscaled_nlp_cv (w : bool) (t : norm) : M R :=
  do tx <- tg w i_x;
  qn (NC_uncv w) (Some (NC_uncv (negb w))) ([tx], [nnum t])
    (do tc <- cq_unscaled_c w; do c <- rd tc; do td <- cq_d w; do d <- rd td;
     do dL <- gets (fun s => bnd s SL);
     let vL := if Nat.eqb (dim dL) 0 then [] else
       let dv := pmul (pdL P) 1 dL (-1) d in
       let v := ptmul (pdL P) 1 (un_d dv) 0 [] in
       vmap2 Rmax v (vset (dim v) 0) in
     do dU <- gets (fun s => bnd s SU);
     let vU := if Nat.eqb (dim dU) 0 then [] else
       let dv := pmul (pdU P) 1 dU (-1) d in
       let v := ptmul (pdU P) 1 (un_d dv) 0 [] in
       vmap2 Rmin v (vset (dim v) 0) in
     ret (calc_norm t [c; vL; vU])).

(** unscaled_orig_x_L_violation, unscaled_orig_x_U_violation: 1590-1660 *)
Definition un_orig_viol_L (x : vec) : vec :=
  match orig_xL P with
  | None => vset (length (pxL P)) 0
  | Some ox =>
      if Nat.eqb (length (pxL P)) 0 then vset (length (pxL P)) 0 else
      let v := ptmul (pxL P) (-1) x 0 [] in
      let v := vmap2 (fun a b => a + 1 * b) v ox in
      vmap2 Rmax v (vset (dim v) 0)
  end.
Definition un_orig_viol_U (x : vec) : vec :=
  match orig_xU P with
  | None => vset (length (pxU P)) 0
  | Some ox =>
      if Nat.eqb (length (pxU P)) 0 then vset (length (pxU P)) 0 else
      let v := ptmul (pxU P) 1 x 0 [] in
      let v := vmap2 (fun a b => a + -1 * b) v ox in
      vmap2 Rmax v (vset (dim v) 0)
  end.
(** unscaled_curr_orig_x_L_violation: 1662-1682 *)
Definition cq_un_orig_L : M nat :=
  do tx <- tg false i_x;
  do r <- gets (fun s => look (pca s) ([tx], []));
  match r with
  | Some v => ret (fst v)
  | None =>
      do x <- rd tx;
      let ux := un_x x in
      do t1 <- newv (un_orig_viol_L ux); do t2 <- newv (un_orig_viol_U ux);
      do u <- (fun s => (tt, set_pca s (firstn 1 ((([tx], []), (t1, t2)) :: pca s))));
      ret t1
  end.
(** unscaled_curr_orig_x_U_violation: 1684-1696; None: a null pointer is returned *)
Definition cq_un_orig_U : M (option nat) :=
  do u <- cq_un_orig_L;
  do tx <- tg false i_x;
  do r <- gets (fun s => look (pca s) ([tx], []));
  ret (match r with Some v => Some (snd v) | None => None end).
(** unscaled_curr_orig_bounds_violation: 1698-1726; None: a null pointer is dereferenced *)
Definition cq_un_orig_bv (t : norm) : M (option R) :=
  do tx <- tg false i_x;
  do r <- nget NC_unobv ([tx], [nnum t]);
  match r with
  | Some v => ret (Some v)
  | None =>
      do u <- cq_un_orig_L;
      do p <- gets (fun s => look (pca s) ([tx], []));
      match p with
      | None => ret None
      | Some p =>
          do a <- rd (fst p); do b <- rd (snd p);
          let v := calc_norm2 t a b in
          do u <- nadd NC_unobv ([tx], [nnum t]) v; ret (Some v)
      end
  end.
(** apply_vector_scaling_x_LU, IpNLPScaling.cpp 25-69 *)
Definition ap_x_LU (p : list nat) (lu : vec) : vec :=
  if have_x_scaling P then ptmul p 1 (ap_x (pmul p 1 lu 0 (vset (n_x P) 0))) 0 [] else lu.
(** orig_x_L_violation, orig_x_U_violation: 1728-1805 *)
Definition orig_viol_L (x : vec) : vec :=
  match orig_xL P with
  | None => vset (length (pxL P)) 0
  | Some ox =>
      if Nat.eqb (length (pxL P)) 0 then vset (length (pxL P)) 0 else
      let xl := ap_x_LU (pxL P) ox in
      let v := ptmul (pxL P) (-1) x 0 [] in
      let v := vmap2 (fun a b => a + 1 * b) v xl in
      vmap2 Rmax v (vset (dim v) 0)
  end.
Definition orig_viol_U (x : vec) : vec :=
  match orig_xU P with
  | None => vset (length (pxU P)) 0
  | Some ox =>
      if Nat.eqb (length (pxU P)) 0 then vset (length (pxU P)) 0 else
      let xu := ap_x_LU (pxU P) ox in
      let v := ptmul (pxU P) 1 x 0 [] in
      let v := vmap2 (fun a b => a + -1 * b) v xu in
      vmap2 Rmax v (vset (dim v) 0)
  end.
(** 1807-1847 *)
Definition cq_orig_L : M nat :=
  if negb (have_x_scaling P) then cq_un_orig_L else
  do tx <- tg false i_x; qv VC_oxL None ([tx], []) (do x <- rd tx; newv (orig_viol_L x)).
Definition cq_orig_U : M (option nat) :=
  if negb (have_x_scaling P) then cq_un_orig_U else
  do tx <- tg false i_x; do t <- qv VC_oxU None ([tx], []) (do x <- rd tx; newv (orig_viol_U x)); ret (Some t).
(** curr_orig_bounds_violation: 1849-1879 *)
Definition cq_orig_bv (t : norm) : M (option R) :=
  if negb (have_x_scaling P) then cq_un_orig_bv t else
  do tx <- tg false i_x;
  do r <- nget NC_obv ([tx], [nnum t]);
  match r with
  | Some v => ret (Some v)
  | None =>
      do tl <- cq_orig_L; do tu <- cq_orig_U;
      match tu with
      | None => ret None
      | Some tu =>
          do a <- rd tl; do b <- rd tu;
          let v := calc_norm2 t a b in
          do u <- nadd NC_obv ([tx], [nnum t]) v; ret (Some v)
      end
  end.

(** curr_exact_hessian: 1948-1986 *)
Definition cq_hessian : M mat :=
  do tx <- tg false i_x; do tc <- tg false i_yc; do td <- tg false i_yd; do m <- cmu;
  qm MC_h None ([tx; tc; td], mudep m)
    (do x <- rd tx; do yc <- rd tc; do yd <- rd td;
     ret (if dep_mu P then fn_h_mu P x 1 yc yd m else fn_h P x 1 yc yd)).

(** curr_grad_lag_x, trial_grad_lag_x: 1993-2067 *)
Definition cq_grad_lag_x (w : bool) : M nat :=
  do tx <- tg w i_x; do tc <- tg w i_yc; do td <- tg w i_yd; do tL <- tg w i_zL; do tU <- tg w i_zU;
  qv (VC_glx w) (Some (VC_glx (negb w))) ([tx; tc; td; tL; tU], [])
    (do t0 <- cq_grad_f w; do g <- rd t0;
     do t1 <- cq_jac_cT_times_y w; do a <- rd t1; do t2 <- cq_jac_dT_times_y w; do b <- rd t2;
     do zL <- rd tL; do zU <- rd tU;
     let tmp := mk (dim g) (fun i => 1 * el g i + 1 * el a i + 1 * el b i) in   (* AddTwoVectors(1, a, 1, b, 1) *)
     let tmp := pmul (pxL P) (-1) zL 1 tmp in
     newv (pmul (pxU P) 1 zU 1 tmp)).
(** curr_grad_lag_s, trial_grad_lag_s: 2069-2129 *)
Definition cq_grad_lag_s (w : bool) : M nat :=
  do td <- tg w i_yd; do tL <- tg w i_vL; do tU <- tg w i_vU;
  qv (VC_gls w) (Some (VC_gls (negb w))) ([td; tL; tU], [])
    (do yd <- rd td; do vL <- rd tL; do vU <- rd tU;
     let tmp := pmul (pdU P) 1 vU 0 (vset (n_s P) 0) in
     let tmp := pmul (pdL P) (-1) vL 1 tmp in
     newv (vmap2 (fun a b => a + -1 * b) tmp yd)).
(** curr_grad_lag_with_damping_x: 2131-2180 *)
Definition cq_grad_lag_damp_x : M nat :=
  if Req_EM_T (kappa_d o) 0 then cq_grad_lag_x false else
  do tx <- tg false i_x; do tc <- tg false i_yc; do td <- tg false i_yd; do tL <- tg false i_zL; do tU <- tg false i_zU;
  do m <- cmu;
  qv VC_gldx None ([tx; tc; td; tL; tU], [m])
    (do t <- cq_grad_lag_x false; do g <- rd t; do d <- cq_damp;
     let '(dxL, dxU, dsL, dsU) := d in
     newv (pmul (pxU P) (- kappa_d o * m) dxU 1 (pmul (pxL P) (kappa_d o * m) dxL 1 g))).
(** curr_grad_lag_with_damping_s: 2182-2227 *)
Definition cq_grad_lag_damp_s : M nat :=
  if Req_EM_T (kappa_d o) 0 then cq_grad_lag_s false else
  do td <- tg false i_yd; do tL <- tg false i_vL; do tU <- tg false i_vU;
  do m <- cmu;
  qv VC_glds None ([td; tL; tU], [m])
    (do t <- cq_grad_lag_s false; do g <- rd t; do d <- cq_damp;
     let '(dxL, dxU, dsL, dsU) := d in
     newv (pmul (pdU P) (- kappa_d o * m) dsU 1 (pmul (pdL P) (kappa_d o * m) dsL 1 g))).

(** curr_compl_x_L, ..., trial_compl_s_U: 2229-2404. For the bounds on s the result is not
    added: 2341, 2361, 2381, 2401 call GetCachedResult2Dep instead. *)
Definition cq_compl (w : bool) (b : bd) : M nat :=
  do ts <- cq_slack w b; do tm <- tg w (mult b);
  qv2 (match b with XL | XU => true | SL | SU => false end) (VC_compl w b) (Some (VC_compl (negb w) b)) ([ts; tm], [])
    (do s <- rd ts; do m <- rd tm; newv (vmap2 Rmult s m)).
(** curr_relaxed_compl_x_L, ..., curr_relaxed_compl_s_U: 2406-2512 *)
Definition cq_relaxed_compl (b : bd) : M nat :=
  do ts <- cq_slack false b; do tm <- tg false (mult b); do m <- cmu;
  qv (VC_relc b) None ([ts; tm], [m])
    (do t <- cq_compl false b; do v <- rd t; newv (vmap (fun a => a + - m) v)).

(** 2570-2651 *)
Definition cq_primal_inf (w : bool) (t : norm) : M R :=
  do tx <- tg w i_x; do ts <- tg w i_s;
  qn (NC_pinf w) (Some (NC_pinf (negb w))) ([tx; ts], [nnum t])
    (do tc <- cq_c w; do td <- cq_d_minus_s w; do c <- rd tc; do d <- rd td; ret (calc_norm2 t c d)).
(** 1468-1480 *)
Definition cq_constr_viol (w : bool) : M R := cq_primal_inf w (cv_norm o).
Definition tags8 (w : bool) : M (list nat) :=
  gets (fun s => let i := itw w s in [i_x i; i_s i; i_yc i; i_yd i; i_zL i; i_zU i; i_vL i; i_vU i]).
Definition tags6 (w : bool) : M (list nat) :=
  gets (fun s => let i := itw w s in [i_x i; i_s i; i_zL i; i_zU i; i_vL i; i_vU i]).
(** 2653-2744 *)
Definition cq_dual_inf (w : bool) (t : norm) : M R :=
  do k <- tags8 w;
  qn (NC_dinf w) (Some (NC_dinf (negb w))) (k, [nnum t])
    (do t1 <- cq_grad_lag_x w; do t2 <- cq_grad_lag_s w; do a <- rd t1; do b <- rd t2; ret (calc_norm2 t a b)).
(** 2746-2797 *)
Definition cq_unscaled_dual_inf (t : norm) : M R :=
  do k <- tags8 false;
  qn NC_undinf None (k, [nnum t])
    (do t1 <- cq_grad_lag_x false; do a <- rd t1;
     let ga := un_grad_obj a in
     let ou := un_obj 1 in
     do t2 <- cq_grad_lag_s false; do b <- rd t2;
     let gb := if Req_EM_T ou 1 then ap_d b else vmap (Rmult ou) (ap_d b) in
     ret (calc_norm2 t ga gb)).
(** 2799-2945 *)
Definition cq_complementarity (w : bool) (m : R) (t : norm) : M R :=
  do k <- tags6 w;
  qn (NC_compl w) (Some (NC_compl (negb w))) (k, [nnum t; m])
    (do t1 <- cq_compl w XL; do t2 <- cq_compl w XU; do t3 <- cq_compl w SL; do t4 <- cq_compl w SU;
     do a <- rd t1; do b <- rd t2; do c <- rd t3; do d <- rd t4;
     if Req_EM_T m 0 then ret (calc_norm t [a; b; c; d])
     else let sh := vmap (fun a => a + - m) in ret (calc_norm t [sh a; sh b; sh c; sh d])).
(** 2947-2953 *)
Definition cq_unscaled_compl (m : R) (t : norm) : M R := do r <- cq_complementarity false m t; ret (Rabs (un_obj r)).

(** CalcCentralityMeasure: 2955-3015; None: numeric_limits<Number>::max() *)
Definition min_with (r : option R) (v : vec) : option R :=
  if Nat.eqb (dim v) 0 then r else Some (match r with None => vmin v | Some a => Rmin a (vmin v) end).
Definition calc_centrality (a b c d : vec) : R :=
  match min_with (min_with (min_with (min_with None a) b) c) d with
  | None => 0
  | Some mn =>
      let avrg := (asum a + asum b + asum c + asum d) / INR (dim a + dim b + dim c + dim d) in
      Rmin 1 (mn / avrg)
  end.
(** 3017-3048 *)
Definition cq_centrality : M R :=
  do k <- tags6 false;
  qn NC_centr None (k, [])
    (do t1 <- cq_compl false XL; do t2 <- cq_compl false XU; do t3 <- cq_compl false SL; do t4 <- cq_compl false SU;
     do a <- rd t1; do b <- rd t2; do c <- rd t3; do d <- rd t4;
     ret (calc_centrality a b c d)).

(** ComputeOptimalityErrorScaling: 3663-3700; (s_d, s_c) *)
Definition scale_of (sum : R) (n : nat) : R :=
  if Nat.eqb n 0 then 1 else Rmax (s_max o) (sum / INR n) / s_max o.
Definition error_scaling (yc yd zL zU vL vU : vec) : R * R :=
  let zs := asum zL + asum zU + asum vL + asum vU in
  let nz := (dim zL + dim zU + dim vL + dim vU)%nat in
  let ys := asum yc + asum yd + asum zL + asum zU + asum vL + asum vU in
  let ny := (dim yc + dim yd + dim zL + dim zU + dim vL + dim vU)%nat in
  (scale_of ys ny, scale_of zs nz).
Definition cq_scaling : M (R * R) :=
  gets (fun s => let i := curr s in
    error_scaling (val s (i_yc i)) (val s (i_yd i)) (val s (i_zL i)) (val s (i_zU i)) (val s (i_vL i)) (val s (i_vU i))).
(** curr_nlp_error: 3050-3104 *)
Definition cq_nlp_error : M R :=
  do k <- tags8 false;
  qn NC_nlperr None (k, [])
    (do sdc <- cq_scaling;
     do a <- cq_dual_inf false NMax;
     do b <- cq_nlp_cv NMax;
     do c <- cq_complementarity false (mu_target o) NMax;
     ret (Rmax (Rmax (a / fst sdc) b) (c / snd sdc))).
(** unscaled_curr_nlp_error: 3106-3146 *)
Definition cq_unscaled_nlp_error : M R :=
  do k <- tags8 false;
  qn NC_unnlperr None (k, [])
    (do a <- cq_unscaled_dual_inf NMax;
     do b <- cq_unscaled_nlp_cv false NMax;
     do c <- cq_unscaled_compl (mu_target o) NMax;
     ret (Rmax (Rmax a b) c)).
(** curr_barrier_error: 3148-3196. Looked up with mu (3173) but added without it (3193). *)
Definition cq_barrier_error : M R :=
  do k <- tags8 false; do m <- cmu;
  qn2 NC_barerr None (k, [m]) (k, [])
    (do sdc <- cq_scaling;
     do a <- cq_dual_inf false NMax;
     do b <- cq_primal_inf false NMax;
     do c <- cq_complementarity false m NMax;
     ret (Rmax (Rmax (a / fst sdc) b) (c / snd sdc))).
(** 3198-3318 *)
Definition dims (w : bool) : M (nat * nat * nat) :=
  gets (fun s => let i := itw w s in
    (dim (val s (i_x i)) + dim (val s (i_s i)), dim (val s (i_yc i)) + dim (val s (i_yd i)),
     dim (val s (i_zL i)) + dim (val s (i_zU i)) + dim (val s (i_vL i)) + dim (val s (i_vU i)))%nat).
Definition cq_pd_error (w : bool) (m : R) : M R :=
  do k <- tags8 w; do n <- dims w;
  let '(n_dual, n_primal, n_cmpl) := n in
  qn (NC_pde w) (Some (NC_pde (negb w))) (k, [m])
    (do a <- cq_dual_inf w N1;
     do b <- (if Nat.eqb n_primal 0 then ret 0 else do b <- cq_primal_inf w N1; ret (b / INR n_primal));
     do c <- (if Nat.eqb n_cmpl 0 then ret 0 else do c <- cq_complementarity w m N1; ret (c / INR n_cmpl));
     ret (a / INR n_dual + b + c)).

(** CalcFracToBound: 3322-3355 *)
Definition calc_frac (sL : vec) (pL : list nat) (sU : vec) (pU : list nat) (delta : vec) (tau : R) : R :=
  let aL := if Nat.eqb (dim sL) 0 then 1 else frac_to_bound sL (ptmul pL 1 delta 0 []) tau in
  let aU := if Nat.eqb (dim sU) 0 then 1 else frac_to_bound sU (ptmul pU (-1) delta 0 []) tau in
  Rmin aL aU.
(** primal_frac_to_the_bound: 3357-3389 *)
Definition cq_primal_frac (tau : R) (tdx tds : nat) : M R :=
  do tx <- tg false i_x; do ts <- tg false i_s;
  qn NC_pfrac None ([tx; ts; tdx; tds], [tau])
    (do t1 <- cq_slack false XL; do t2 <- cq_slack false XU; do t3 <- cq_slack false SL; do t4 <- cq_slack false SU;
     do a <- rd t1; do b <- rd t2; do c <- rd t3; do d <- rd t4; do dx <- rd tdx; do ds <- rd tds;
     ret (Rmin (calc_frac a (pxL P) b (pxU P) dx tau) (calc_frac c (pdL P) d (pdU P) ds tau))).
(** 3391-3398 *)
Definition cq_curr_primal_frac (tau : R) : M R := do i <- gets delta; cq_primal_frac tau (i_x i) (i_s i).
(** uncached_dual_frac_to_the_bound, dual_frac_to_the_bound, curr_dual_frac_to_the_bound: 3400-3470 *)
Definition cq_unc_dual_frac (tau : R) (t1 t2 t3 t4 : nat) : M R :=
  gets (fun s => let i := curr s in
    Rmin (Rmin (Rmin (frac_to_bound (val s (i_zL i)) (val s t1) tau) (frac_to_bound (val s (i_zU i)) (val s t2) tau))
               (frac_to_bound (val s (i_vL i)) (val s t3) tau)) (frac_to_bound (val s (i_vU i)) (val s t4) tau)).
Definition cq_dual_frac (tau : R) (t1 t2 t3 t4 : nat) : M R :=
  do i <- gets curr;
  qn NC_dfrac None ([i_zL i; i_zU i; i_vL i; i_vU i; t1; t2; t3; t4], [tau]) (cq_unc_dual_frac tau t1 t2 t3 t4).
Definition cq_curr_dual_frac (tau : R) : M R :=
  do i <- gets delta; cq_dual_frac tau (i_zL i) (i_zU i) (i_vL i) (i_vU i).
(** uncached_slack_frac_to_the_bound: 3472-3494 *)
Definition cq_unc_slack_frac (tau : R) (t1 t2 t3 t4 : nat) : M R :=
  do u1 <- cq_slack false XL; do u2 <- cq_slack false XU; do u3 <- cq_slack false SL; do u4 <- cq_slack false SU;
  do a <- rd u1; do b <- rd u2; do c <- rd u3; do d <- rd u4;
  do d1 <- rd t1; do d2 <- rd t2; do d3 <- rd t3; do d4 <- rd t4;
  ret (Rmin (Rmin (Rmin (frac_to_bound a d1 tau) (frac_to_bound b d2 tau)) (frac_to_bound c d3 tau)) (frac_to_bound d d4 tau)).

(** curr_sigma_x, curr_sigma_s: 3501-3551 *)
Definition cq_sigma_x : M nat :=
  do tx <- tg false i_x; do tL <- tg false i_zL; do tU <- tg false i_zU;
  qv VC_sigx None ([tx; tL; tU], [])
    (do t1 <- cq_slack false XL; do a <- rd t1; do t2 <- cq_slack false XU; do b <- rd t2; do zL <- rd tL; do zU <- rd tU;
     newv (pmsinvz (pxU P) 1 b zU (pmsinvz (pxL P) 1 a zL (vset (n_x P) 0)))).
Definition cq_sigma_s : M nat :=
  do tx <- tg false i_s; do tL <- tg false i_vL; do tU <- tg false i_vU;
  qv VC_sigs None ([tx; tL; tU], [])
    (do t1 <- cq_slack false SL; do a <- rd t1; do t2 <- cq_slack false SU; do b <- rd t2; do vL <- rd tL; do vU <- rd tU;
     newv (pmsinvz (pdU P) 1 b vU (pmsinvz (pdL P) 1 a vL (vset (n_s P) 0)))).
(** 3553-3661 *)
Definition cq_avrg_compl (w : bool) : M R :=
  do k <- tags6 w;
  qn (NC_avrg w) (Some (NC_avrg (negb w))) (k, [])
    (do t1 <- cq_slack w XL; do t2 <- cq_slack w XU; do t3 <- cq_slack w SL; do t4 <- cq_slack w SU;
     do a <- rd t1; do b <- rd t2; do c <- rd t3; do d <- rd t4;
     do i <- gets (itw w);
     do zL <- rd (i_zL i); do zU <- rd (i_zU i); do vL <- rd (i_vL i); do vU <- rd (i_vU i);
     let n := (dim zL + dim zU + dim vL + dim vU)%nat in
     ret (if Nat.eqb n 0 then 0 else (dot zL a + dot zU b + dot vL c + dot vU d) / INR n)).
(** curr_gradBarrTDelta: 3702-3730 *)
Definition cq_grad_barr_delta : M R :=
  do i <- gets curr; do di <- gets delta; do m <- cmu;
  qn NC_gbtd None ([i_x i; i_s i; i_x di; i_s di], [m])
    (do t1 <- cq_grad_barrier_x; do t2 <- cq_grad_barrier_s;
     do a <- rd t1; do b <- rd t2; do dx <- rd (i_x di); do ds <- rd (i_s di);
     ret (dot a dx + dot b ds)).
End CQ.
