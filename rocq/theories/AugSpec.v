(** What the augmented system, least squares multipliers and least squares starting points are. *)
From Coq Require Import Reals List Arith Bool.
From Verif Require Import CQModel CQSpec PdModel PdSpec AugModel.
Import ListNotations.
Open Scope R_scope.
Local Notation "v .[ i ]" := (nth i v 0) (at level 1, format "v .[ i ]").

(** * The system of IpAugSystemSolver.hpp, row by row; an absent W or D counts as zero
      (W_factor W + D_x + delta_x) x + J_c' y_c + J_d' y_d,   (D_s + delta_s) s - y_d,
      J_c x + (D_c - delta_c) y_c,   J_d x - s + (D_d - delta_d) y_d *)
Definition dv (D : option vec) (i : nat) : R := match D with Some v => v.[i] | None => 0 end.
Definition wv (q : aarg) (x : vec) (i : nat) : R := match g_W q with Some W => g_wf q * Jv W x i | None => 0 end.
Definition row_x (q : aarg) (a : av) (i : nat) : R :=
  wv q (ax a) i + (dv (g_Dx q) i + g_dx q) * (ax a).[i] + JTv (g_Jc q) (ac a) i + JTv (g_Jd q) (ad a) i.
Definition row_s (q : aarg) (a : av) (i : nat) : R := (dv (g_Ds q) i + g_ds q) * (as_ a).[i] - (ad a).[i].
Definition row_c (q : aarg) (a : av) (i : nat) : R := Jv (g_Jc q) (ax a) i + (dv (g_Dc q) i - g_dc q) * (ac a).[i].
Definition row_d (q : aarg) (a : av) (i : nat) : R := Jv (g_Jd q) (ax a) i - (as_ a).[i] + (dv (g_Dd q) i - g_dd q) * (ad a).[i].

Section Spec.
Variables (nx ns nc : nat).
Definition rows_are (b : av) (fx fs fc fd : nat -> R) : Prop :=
  vec_is (ax b) nx fx /\ vec_is (as_ b) ns fs /\ vec_is (ac b) nc fc /\ vec_is (ad b) ns fd.
Definition solves_arg (q : aarg) (b a : av) : Prop :=
  av_ok nx ns nc a /\ rows_are b (row_x q a) (row_s q a) (row_c q a) (row_d q a).
Definition olen (D : option vec) (n : nat) : Prop := match D with Some v => length v = n | None => True end.
Record arg_ok (q : aarg) : Prop := {
  a_W : match g_W q with Some W => mr W = nx /\ mc W = nx | None => True end;
  a_Jc : mr (g_Jc q) = nc /\ mc (g_Jc q) = nx; a_Jd : mr (g_Jd q) = ns /\ mc (g_Jd q) = nx;
  a_D : olen (g_Dx q) nx /\ olen (g_Ds q) ns /\ olen (g_Dc q) nc /\ olen (g_Dd q) ns
}.

(** * A history of calls *)
Record call := Call { k_q : aarg; k_t : atag; k_bs : list av; k_chk : bool; k_n : nat }.
(** dimensions fit, there is a right hand side, tags of objects are not 0 *)
Definition call_ok (k : call) : Prop :=
  arg_ok (k_q k) /\ k_bs k <> [] /\ Forall (av_ok nx ns nc) (k_bs k) /\
  (g_W (k_q k) <> None -> t_W (k_t k) <> O) /\ (g_Dx (k_q k) <> None -> t_Dx (k_t k) <> O) /\ (g_Ds (k_q k) <> None -> t_Ds (k_t k) <> O) /\
  (g_Dc (k_q k) <> None -> t_Dc (k_t k) <> O) /\ (g_Dd (k_q k) <> None -> t_Dd (k_t k) <> O).
(** equal tags mean equal values (C03-C06) *)
Definition slot {A} (o1 o2 : option A) (t1 t2 : nat) : Prop := o1 <> None -> o2 <> None -> t1 = t2 -> o1 = o2.
Definition agree (k1 k2 : call) : Prop :=
  let (q1, t1, _, _, _) := k1 in let (q2, t2, _, _, _) := k2 in
  slot (g_W q1) (g_W q2) (t_W t1) (t_W t2) /\ slot (g_Dx q1) (g_Dx q2) (t_Dx t1) (t_Dx t2) /\ slot (g_Ds q1) (g_Ds q2) (t_Ds t1) (t_Ds t2) /\
  (t_Jc t1 = t_Jc t2 -> g_Jc q1 = g_Jc q2) /\ slot (g_Dc q1) (g_Dc q2) (t_Dc t1) (t_Dc t2) /\
  (t_Jd t1 = t_Jd t2 -> g_Jd q1 = g_Jd q2) /\ slot (g_Dd q1) (g_Dd q2) (t_Dd t1) (t_Dd t2).
(** the calls are made one after the other, the last one returns z *)
Inductive history {L} (ls : linsolver L) : list call -> sst L -> Prop :=
| h_start s : s_sys s = None -> history ls [] s
| h_call ks k s r xs K s' : history ls ks s ->
    multi_solve ls (k_q k) (k_t k) (k_bs k) (k_chk k) (k_n k) s = Some (r, xs, K, s') -> history ls (ks ++ [k]) s'.
Definition history_ok (ks : list call) : Prop :=
  Forall call_ok ks /\ (forall k1 k2, In k1 ks -> In k2 ks -> agree k1 k2) /\
  (forall k ks', ks = k :: ks' -> g_W (k_q k) <> None).
(** the same objects and numbers are passed *)
Definition same_ptr {A} (o1 o2 : option A) (t1 t2 : nat) : Prop :=
  match o1, o2 with Some _, Some _ => t1 = t2 | None, None => True | _, _ => False end.
Definition same_args (k1 k2 : call) : Prop :=
  let (q1, t1, _, _, _) := k1 in let (q2, t2, _, _, _) := k2 in
  same_ptr (g_W q1) (g_W q2) (t_W t1) (t_W t2) /\ g_wf q1 = g_wf q2 /\
  same_ptr (g_Dx q1) (g_Dx q2) (t_Dx t1) (t_Dx t2) /\ g_dx q1 = g_dx q2 /\
  same_ptr (g_Ds q1) (g_Ds q2) (t_Ds t1) (t_Ds t2) /\ g_ds q1 = g_ds q2 /\
  t_Jc t1 = t_Jc t2 /\ same_ptr (g_Dc q1) (g_Dc q2) (t_Dc t1) (t_Dc t2) /\ g_dc q1 = g_dc q2 /\
  t_Jd t1 = t_Jd t2 /\ same_ptr (g_Dd q1) (g_Dd q2) (t_Dd t1) (t_Dd t2) /\ g_dd q1 = g_dd q2.
(** a linear solver that solves what it is given *)
Definition lin_exact {L} (ls : linsolver L) : Prop :=
  forall l t K bs chk n xs l', ls l (t, K) bs chk n = (SUCCESS, xs, l') ->
  Forall2 (fun b x => av_ok nx ns nc x /\ kmul K x = b) bs xs.
End Spec.

(** * Least squares *)
Definition sq (n : nat) (f : nat -> R) : R := sumn n (fun i => f i * f i).

Section LSpec.
Variable P : nlp.
(** the gradient of the Lagrangian with respect to x and s, for a gradient g of the objective and Jacobians Jc, Jd *)
Definition lag_x (g : vec) (Jc Jd : mat) (yc yd zL zU : vec) (i : nat) : R :=
  g.[i] + JTv Jc yc i + JTv Jd yd i - scat (pxL P) (fun k => zL.[k]) i + scat (pxU P) (fun k => zU.[k]) i.
Definition lag_s (yd vL vU : vec) (i : nat) : R :=
  - yd.[i] - scat (pdL P) (fun k => vL.[k]) i + scat (pdU P) (fun k => vU.[k]) i.
(** its squared length at the point v with equality multipliers yc, yd *)
Definition lag_sq (v : iv) (yc yd : vec) : R :=
  sq (n_x P) (lag_x (fn_g P (vx v)) (fn_Jc P (vx v)) (fn_Jd P (vx v)) yc yd (vzL v) (vzU v)) + sq (n_s P) (lag_s yd (vvL v) (vvU v)).
Record nlp_ok : Prop := {
  p_g : forall x, length x = n_x P -> length (fn_g P x) = n_x P;
  p_c : forall x, length x = n_x P -> length (fn_c P x) = n_c P; p_d : forall x, length x = n_x P -> length (fn_d P x) = n_s P;
  p_Jc : forall x, mr (fn_Jc P x) = n_c P /\ mc (fn_Jc P x) = n_x P;
  p_Jd : forall x, mr (fn_Jd P x) = n_s P /\ mc (fn_Jd P x) = n_x P;
  p_px : forall i, In i (pxL P) \/ In i (pxU P) -> (i < n_x P)%nat;
  p_pd : forall i, In i (pdL P) \/ In i (pdU P) -> (i < n_s P)%nat
}.
Definition point_ok (v : iv) : Prop :=
  length (vx v) = n_x P /\ length (vs v) = n_s P /\ length (vzL v) = length (pxL P) /\ length (vzU v) = length (pxU P) /\
  length (vvL v) = length (pdL P) /\ length (vvU v) = length (pdU P).
(** a solver of the augmented system whose successful answers are solutions *)
Definition aug_exact {L} (asolve : L -> aarg -> av -> bool -> nat -> status * av * L) : Prop :=
  forall l q b chk n a l', arg_ok (n_x P) (n_s P) (n_c P) q -> av_ok (n_x P) (n_s P) (n_c P) b -> asolve l q b chk n = (SUCCESS, a, l') ->
  solves_arg (n_x P) (n_s P) (n_c P) q b a.
End LSpec.
