(** What a linear solve is for: the primal-dual Newton system, written out row by row. *)
From Coq Require Import Reals List Arith Bool.
From Verif Require Import CQModel CQSpec PdModel.
Import ListNotations.
Open Scope R_scope.
Local Notation "v .[ i ]" := (nth i v 0) (at level 1, format "v .[ i ]").

Section Spec.
Variables (nx ns nc : nat) (Y : psys) (d : deltas).

(** a number for each row of each of the eight blocks *)
Record rows := Rows { w_x : nat -> R; w_s : nat -> R; w_c : nat -> R; w_d : nat -> R;
                      w_zL : nat -> R; w_zU : nat -> R; w_vL : nat -> R; w_vU : nat -> R }.
Definition iv_is (v : iv) (w : rows) : Prop :=
  vec_is (vx v) nx (w_x w) /\ vec_is (vs v) ns (w_s w) /\ vec_is (vyc v) nc (w_c w) /\ vec_is (vyd v) ns (w_d w) /\
  vec_is (vzL v) (length (y_pxL Y)) (w_zL w) /\ vec_is (vzU v) (length (y_pxU Y)) (w_zU w) /\
  vec_is (vvL v) (length (y_pdL Y)) (w_vL w) /\ vec_is (vvU v) (length (y_pdU Y)) (w_vU w).
Definition of_iv (v : iv) : rows :=
  Rows (fun i => (vx v).[i]) (fun i => (vs v).[i]) (fun i => (vyc v).[i]) (fun i => (vyd v).[i])
       (fun i => (vzL v).[i]) (fun i => (vzU v).[i]) (fun i => (vvL v).[i]) (fun i => (vvU v).[i]).
(** the vector has the right dimensions *)
Definition iv_ok (v : iv) : Prop := iv_is v (of_iv v).

(** the Newton matrix with the perturbations d, times v:
      (W + delta_x) x + J_c' y_c + J_d' y_d - P_xL z_L + P_xU z_U
      delta_s s - y_d - P_dL v_L + P_dU v_U
      J_c x - delta_c y_c
      J_d x - s - delta_d y_d
      Z_L P_xL' x + S_xL z_L,   - Z_U P_xU' x + S_xU z_U
      V_L P_dL' s + S_dL v_L,   - V_U P_dU' s + S_dU v_U *)
Definition newton (v : iv) : rows := Rows
  (fun i => Jv (y_W Y) (vx v) i + d_x d * (vx v).[i] + JTv (y_Jc Y) (vyc v) i + JTv (y_Jd Y) (vyd v) i
            - scat (y_pxL Y) (fun k => (vzL v).[k]) i + scat (y_pxU Y) (fun k => (vzU v).[k]) i)
  (fun i => d_s d * (vs v).[i] - (vyd v).[i]
            - scat (y_pdL Y) (fun k => (vvL v).[k]) i + scat (y_pdU Y) (fun k => (vvU v).[k]) i)
  (fun i => Jv (y_Jc Y) (vx v) i - d_c d * (vyc v).[i])
  (fun i => Jv (y_Jd Y) (vx v) i - (vs v).[i] - d_d d * (vyd v).[i])
  (fun k => (y_zL Y).[k] * (vx v).[nth k (y_pxL Y) O] + (y_sxL Y).[k] * (vzL v).[k])
  (fun k => - (y_zU Y).[k] * (vx v).[nth k (y_pxU Y) O] + (y_sxU Y).[k] * (vzU v).[k])
  (fun k => (y_vL Y).[k] * (vs v).[nth k (y_pdL Y) O] + (y_ssL Y).[k] * (vvL v).[k])
  (fun k => - (y_vU Y).[k] * (vs v).[nth k (y_pdU Y) O] + (y_ssU Y).[k] * (vvU v).[k]).

Definition solves (rhs v : iv) : Prop := iv_ok v /\ iv_is rhs (newton v).

(** the augmented system (IpAugSystemSolver.hpp:20-31):
      (W + D_x + delta_x) x + J_c' y_c + J_d' y_d = b_x,  (D_s + delta_s) s - y_d = b_s,
      J_c x - delta_c y_c = b_c,  J_d x - s - delta_d y_d = b_d *)
Definition av_ok (a : av) : Prop := length (ax a) = nx /\ length (as_ a) = ns /\ length (ac a) = nc /\ length (ad a) = ns.
Definition aug_x (a : av) (i : nat) : R :=
  Jv (y_W Y) (ax a) i + ((y_sigx Y).[i] + d_x d) * (ax a).[i] + JTv (y_Jc Y) (ac a) i + JTv (y_Jd Y) (ad a) i.
Definition aug_s (a : av) (i : nat) : R := ((y_sigs Y).[i] + d_s d) * (as_ a).[i] - (ad a).[i].
Definition aug_c (a : av) (i : nat) : R := Jv (y_Jc Y) (ax a) i - d_c d * (ac a).[i].
Definition aug_d (a : av) (i : nat) : R := Jv (y_Jd Y) (ax a) i - (as_ a).[i] - d_d d * (ad a).[i].
Definition solves_aug (b a : av) : Prop :=
  av_ok a /\ (forall i, (i < nx)%nat -> aug_x a i = (ax b).[i]) /\ (forall i, (i < ns)%nat -> aug_s a i = (as_ b).[i]) /\
  (forall i, (i < nc)%nat -> aug_c a i = (ac b).[i]) /\ (forall i, (i < ns)%nat -> aug_d a i = (ad b).[i]).

(** dimensions fit, slacks are not zero, Sigma is Z_L/S_L + Z_U/S_U (C60) *)
Record sys_ok : Prop := {
  k_W : mr (y_W Y) = nx /\ mc (y_W Y) = nx;
  k_Jc : mr (y_Jc Y) = nc /\ mc (y_Jc Y) = nx;
  k_Jd : mr (y_Jd Y) = ns /\ mc (y_Jd Y) = nx;
  k_px : forall i, In i (y_pxL Y) \/ In i (y_pxU Y) -> (i < nx)%nat;
  k_pd : forall i, In i (y_pdL Y) \/ In i (y_pdU Y) -> (i < ns)%nat;
  k_z : length (y_zL Y) = length (y_pxL Y) /\ length (y_zU Y) = length (y_pxU Y) /\
        length (y_vL Y) = length (y_pdL Y) /\ length (y_vU Y) = length (y_pdU Y);
  k_s : length (y_sxL Y) = length (y_pxL Y) /\ length (y_sxU Y) = length (y_pxU Y) /\
        length (y_ssL Y) = length (y_pdL Y) /\ length (y_ssU Y) = length (y_pdU Y);
  k_nz : (forall k, (k < length (y_pxL Y))%nat -> (y_sxL Y).[k] <> 0) /\ (forall k, (k < length (y_pxU Y))%nat -> (y_sxU Y).[k] <> 0) /\
         (forall k, (k < length (y_pdL Y))%nat -> (y_ssL Y).[k] <> 0) /\ (forall k, (k < length (y_pdU Y))%nat -> (y_ssU Y).[k] <> 0);
  k_sigx : vec_is (y_sigx Y) nx (fun i => scat (y_pxL Y) (fun k => (y_zL Y).[k] / (y_sxL Y).[k]) i + scat (y_pxU Y) (fun k => (y_zU Y).[k] / (y_sxU Y).[k]) i);
  k_sigs : vec_is (y_sigs Y) ns (fun i => scat (y_pdL Y) (fun k => (y_vL Y).[k] / (y_ssL Y).[k]) i + scat (y_pdU Y) (fun k => (y_vU Y).[k] / (y_ssU Y).[k]) i)
}.
End Spec.

(** rows: a - b, a * v + b * w *)
Definition lin2 (a : R) (v : rows) (b : R) (w : rows) : rows := Rows
  (fun i => a * w_x v i + b * w_x w i) (fun i => a * w_s v i + b * w_s w i) (fun i => a * w_c v i + b * w_c w i) (fun i => a * w_d v i + b * w_d w i)
  (fun i => a * w_zL v i + b * w_zL w i) (fun i => a * w_zU v i + b * w_zU w i) (fun i => a * w_vL v i + b * w_vL w i) (fun i => a * w_vU v i + b * w_vU w i).
(** largest absolute value *)
Definition maxabs_is (v : iv) (r : R) : Prop :=
  norm_is NMax (map (fun v : vec => (length v, fun i => v.[i])) [vx v; vs v; vyc v; vyd v; vzL v; vzU v; vvL v; vvU v]) r.

(** the residual is at most t, relative to the right hand side and (where it is not excessively large) the solution *)
Definition resid_small (t : R) (rhs res resid : iv) : Prop :=
  forall a b c, maxabs_is rhs a -> maxabs_is res b -> maxabs_is resid c -> c <= t * (Rmin b (1000000 * a) + a).
Definition resid_below (t : R) (rhs res resid : iv) : Prop :=
  forall a b c, maxabs_is rhs a -> maxabs_is res b -> maxabs_is resid c -> a <> 0 \/ b <> 0 -> c < t * (Rmin b (1000000 * a) + a).

(** A handler whose CurrentPerturbation is what it handed out last; a linear solver whose successful
    answers have the right dimensions; one whose successful answers are solutions *)
Definition handler_ok {H} (ho : hops H) : Prop :=
  (forall h, h_cur ho (snd (h_new ho h)) = fst (h_new ho h)) /\
  (forall h d, fst (h_sing ho h) = Some d -> h_cur ho (snd (h_sing ho h)) = d) /\
  (forall h d, fst (h_inertia ho h) = Some d -> h_cur ho (snd (h_inertia ho h)) = d).
Definition solver_dims {A} (nx ns nc : nat) (ao : augops A) (Y : psys) : Prop :=
  forall a d b chk n x a', a_solve ao a Y d b chk n = (SUCCESS, x, a') -> av_ok nx ns nc x.
Definition solver_exact {A} (nx ns nc : nat) (ao : augops A) (Y : psys) : Prop :=
  forall a d b chk n x a', a_solve ao a Y d b chk n = (SUCCESS, x, a') -> solves_aug nx ns nc Y d b x.

Record popts_ok (o : popts) : Prop := {
  po_mm : (min_ref o <= max_ref o)%nat;
  po_max : 0 < rr_max o; po_sing : rr_max o <= rr_sing o; po_impr : 0 < rr_impr o; po_curv : 0 <= curv_tol o
}.

(** counting in a trace *)
Definition is_ref (e : event) : bool := match e with E_once _ true => true | _ => false end.
Definition is_first (e : event) : bool := match e with E_once _ false => true | _ => false end.
Definition is_singular (e : event) : bool := match e with E_singular => true | _ => false end.
Definition count (p : event -> bool) (l : list event) : nat := length (filter p l).
(** what happened since s *)
Definition since {H A} (s s' : pst H A) (new : list event) : Prop := p_ev s' = new ++ p_ev s.
