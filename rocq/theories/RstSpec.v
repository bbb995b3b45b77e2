(** What the restoration problem, its linear systems and its starting point are. *)
From Coq Require Import Reals List Arith Bool.
From Verif Require Import CQModel CQSpec PdModel PdSpec AugModel AugSpec RstModel.
Import ListNotations.
Open Scope R_scope.
Local Notation "v .[ i ]" := (nth i v 0) (at level 1, format "v .[ i ]").

(** * The linear system
    The variables are (x, n_c, p_c, n_d, p_d); the Hessian has one block W, J_c is (J, I, -I, 0, 0), J_d is (J, 0, 0, I, -I).
    This is the system of AugSpec (row_x ... row_d) for these data, written block by block *)
Section Sys.
Variables (nx nd nc : nat).
Definition rv_ok (v : rv) : Prop :=
  length (r_x v) = nx /\ length (r_nc v) = nc /\ length (r_pc v) = nc /\ length (r_nd v) = nd /\ length (r_pd v) = nd.
Definition rav_ok (a : rav) : Prop := rv_ok (ra_x a) /\ length (ra_s a) = nd /\ length (ra_c a) = nc /\ length (ra_d a) = nd.
Definition dvr (D : option rv) (g : rv -> vec) (i : nat) : R := match D with Some v => (g v).[i] | None => 0 end.
(** the Hessian block times x *)
Definition Wx (W : rhess) (x : vec) (i : nat) : R :=
  match W with HSum f0 h f1 w => f0 * Jv h x i + f1 * (w.[i] * x.[i]) | HLow h => Jv h x i end.
Definition rrow_x (q : rarg) (a : rav) (i : nat) : R :=
  q_wf q * Wx (q_W q) (r_x (ra_x a)) i + (dvr (q_Dx q) r_x i + q_dx q) * (r_x (ra_x a)).[i]
  + JTv (j_0 (q_Jc q)) (ra_c a) i + JTv (j_0 (q_Jd q)) (ra_d a) i.
Definition rrow_nc (q : rarg) (a : rav) (i : nat) : R := (dvr (q_Dx q) r_nc i + q_dx q) * (r_nc (ra_x a)).[i] + (ra_c a).[i].
Definition rrow_pc (q : rarg) (a : rav) (i : nat) : R := (dvr (q_Dx q) r_pc i + q_dx q) * (r_pc (ra_x a)).[i] - (ra_c a).[i].
Definition rrow_nd (q : rarg) (a : rav) (i : nat) : R := (dvr (q_Dx q) r_nd i + q_dx q) * (r_nd (ra_x a)).[i] + (ra_d a).[i].
Definition rrow_pd (q : rarg) (a : rav) (i : nat) : R := (dvr (q_Dx q) r_pd i + q_dx q) * (r_pd (ra_x a)).[i] - (ra_d a).[i].
Definition rrow_s (q : rarg) (a : rav) (i : nat) : R := (dv (q_Ds q) i + q_ds q) * (ra_s a).[i] - (ra_d a).[i].
Definition rrow_c (q : rarg) (a : rav) (i : nat) : R :=
  Jv (j_0 (q_Jc q)) (r_x (ra_x a)) i + (r_nc (ra_x a)).[i] - (r_pc (ra_x a)).[i] + (dv (q_Dc q) i - q_dc q) * (ra_c a).[i].
Definition rrow_d (q : rarg) (a : rav) (i : nat) : R :=
  Jv (j_0 (q_Jd q)) (r_x (ra_x a)) i + (r_nd (ra_x a)).[i] - (r_pd (ra_x a)).[i] - (ra_s a).[i] + (dv (q_Dd q) i - q_dd q) * (ra_d a).[i].
Definition solves_resto (q : rarg) (b a : rav) : Prop :=
  rav_ok a /\
  vec_is (r_x (ra_x b)) nx (rrow_x q a) /\ vec_is (r_nc (ra_x b)) nc (rrow_nc q a) /\ vec_is (r_pc (ra_x b)) nc (rrow_pc q a) /\
  vec_is (r_nd (ra_x b)) nd (rrow_nd q a) /\ vec_is (r_pd (ra_x b)) nd (rrow_pd q a) /\
  vec_is (ra_s b) nd (rrow_s q a) /\ vec_is (ra_c b) nc (rrow_c q a) /\ vec_is (ra_d b) nd (rrow_d q a).
(** dimensions fit; the Jacobians are those of the restoration problem *)
Record rarg_ok (q : rarg) : Prop := {
  b_W : match q_W q with HSum _ h _ w => mr h = nx /\ mc h = nx /\ length w = nx | HLow h => mr h = nx /\ mc h = nx end;
  b_Jc0 : mr (j_0 (q_Jc q)) = nc /\ mc (j_0 (q_Jc q)) = nx; b_Jd0 : mr (j_0 (q_Jd q)) = nd /\ mc (j_0 (q_Jd q)) = nx;
  b_Jcf : j_nc (q_Jc q) = Some 1 /\ j_pc (q_Jc q) = Some (-1) /\ j_nd (q_Jc q) = None /\ j_pd (q_Jc q) = None;
  b_Jdf : j_nc (q_Jd q) = None /\ j_pc (q_Jd q) = None /\ j_nd (q_Jd q) = Some 1 /\ j_pd (q_Jd q) = Some (-1);
  b_Dx : match q_Dx q with Some D => rv_ok D | None => True end;
  b_Ds : olen (q_Ds q) nd; b_Dc : olen (q_Dc q) nc; b_Dd : olen (q_Dd q) nd
}.
(** the diagonal entries of n and p are not zero (in the algorithm: Sigma + delta_x > 0, or 1 in least squares problems) *)
Definition regular (q : rarg) : Prop :=
  (forall i, (i < nc)%nat -> dvr (q_Dx q) r_nc i + q_dx q <> 0 /\ dvr (q_Dx q) r_pc i + q_dx q <> 0) /\
  (forall i, (i < nd)%nat -> dvr (q_Dx q) r_nd i + q_dx q <> 0 /\ dvr (q_Dx q) r_pd i + q_dx q <> 0).
End Sys.
Definition is_low (W : rhess) : Prop := match W with HLow _ => True | _ => False end.

(** * The restoration problem:  min rho * sum (n + p) + eta(mu)/2 * || D_R (x - x_R) ||^2,  c(x) + n_c - p_c = 0,  d(x) + n_d - p_d = s *)
Section Prob.
Variable Z : resto.
Notation P := (z_P Z).
(** the diagonal of D_R: min(1, 1/|x_R|) *)
Definition DR (i : nat) : R := if Req_EM_T (z_ref Z).[i] 0 then 1 else Rmin 1 (/ Rabs (z_ref Z).[i]).
Definition sum_of (v : vec) : R := sumn (length v) (fun i => v.[i]).
Definition objective (x : rv) (mu : R) : R :=
  z_rho Z * (sum_of (r_nc x) + sum_of (r_pc x) + sum_of (r_nd x) + sum_of (r_pd x))
  + z_eta Z * Rpower mu (z_exp Z) / 2 * sumn (n_x P) (fun i => (DR i * ((r_x x).[i] - (z_ref Z).[i])) * (DR i * ((r_x x).[i] - (z_ref Z).[i]))).
(** y = x + t v *)
Definition vmove (x : vec) (t : R) (v : vec) : vec := mk (length x) (fun i => x.[i] + t * v.[i]).
Definition rmove (x : rv) (t : R) (v : rv) : rv :=
  RV (vmove (r_x x) t (r_x v)) (vmove (r_nc x) t (r_nc v)) (vmove (r_pc x) t (r_pc v)) (vmove (r_nd x) t (r_nd v)) (vmove (r_pd x) t (r_pd v)).
Definition rdot (a b : rv) : R :=
  let d u v := sumn (length u) (fun i => u.[i] * v.[i]) in
  d (r_x a) (r_x b) + d (r_nc a) (r_nc b) + d (r_pc a) (r_pc b) + d (r_nd a) (r_nd b) + d (r_pd a) (r_pd b).
Definition rpart (k : nat) (x : rv) : vec := match k with 0 => r_x x | 1 => r_nc x | 2 => r_pc x | 3 => r_nd x | _ => r_pd x end%nat.
(** the gradient of of * f + y_c' c + y_d' d with respect to block k of the variables *)
Definition rlag (of_ : R) (yc yd : vec) (mu : R) (x : rv) (k i : nat) : R :=
  of_ * (rpart k (resto_g Z x mu)).[i] + (rpart k (rj_tmul (n_c P) (n_s P) (resto_Jc Z x) yc)).[i]
  + (rpart k (rj_tmul (n_c P) (n_s P) (resto_Jd Z x) yd)).[i].
(** the derivative information of the original problem at x is right *)
Definition jac_right (F : vec -> vec) (J : vec -> mat) (n m : nat) (x : vec) : Prop :=
  forall v, length v = n -> forall i, (i < m)%nat -> derivable_pt_lim (fun t => (F (vmove x t v)).[i]) 0 (Jv (J x) v i).
Definition hess_right (x yc yd : vec) : Prop :=
  forall v, length v = n_x P -> forall i, (i < n_x P)%nat ->
  derivable_pt_lim (fun t => JTv (fn_Jc P (vmove x t v)) yc i + JTv (fn_Jd P (vmove x t v)) yd i) 0 (Jv (fn_h P x 0 yc yd) v i).
Definition l1 (n : nat) (f : nat -> R) : R := sumn n (fun i => Rabs (f i)).
End Prob.
