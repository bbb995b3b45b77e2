(** What the mu oracles are about: steps from a point, and the error of the point they lead to. *)
From Coq Require Import Reals List Arith Bool.
From Verif Require Import CQModel CQSpec PdModel PdSpec PdSearch QfModel.
From Verif Require AmuModel.
Import ListNotations.
Open Scope R_scope.
Local Notation "v .[ i ]" := (nth i v 0) (at level 1, format "v .[ i ]").

Section Spec.
Variables (P : nlp) (o : opts) (B : bd -> vec).

(** the answers are those of the point e, the barrier parameter m (only for an objective function that depends on it)
    and the fraction-to-the-boundary parameter tau; all slacks and multipliers are positive *)
Record asked_at (m tau : R) (e : env) (i : oin) : Prop := {
  a_gx : vec_is (i_gx i) (n_x P) (glag_x P m e);
  a_gs : vec_is (i_gs i) (n_s P) (glag_s P e);
  a_c : vec_is (i_c i) (n_c P) (fun j => (fn_c P (e_x e)).[j]);
  a_dms : vec_is (i_dms i) (n_s P) (fun j => (fn_d P (e_x e)).[j] - (e_s e).[j]);
  a_cmpl : forall b, vec_is (i_cmpl i b) (nb P b) (fun k => sl P B b e k * mul b e k);
  a_sl : forall b, vec_is (i_sl i b) (nb P b) (sl P B b e);
  a_mul : forall b, vec_is (i_mul i b) (nb P b) (mul b e);
  a_avrg : i_avrg i = avrg P B e;
  a_kx : vec_is (i_kx i) (n_x P) (dampg_x P o);
  a_ks : vec_is (i_ks i) (n_s P) (dampg_s P o);
  a_tau : i_tau i = tau
}.
Definition positive (e : env) : Prop := forall b k, (k < nb P b)%nat -> 0 < sl P B b e k /\ 0 < mul b e k.

(** the point e + (ap (dx, ds), ad (dy, dz)) *)
Definition plus (v : vec) (t : R) (d : vec) : vec := mk (length v) (fun j => v.[j] + t * d.[j]).
Definition moved (ap ad : R) (e : env) (v : iv) : env :=
  Env (plus (e_x e) ap (vx v)) (plus (e_s e) ap (vs v)) (plus (e_yc e) ad (vyc v)) (plus (e_yd e) ad (vyd v))
      (plus (e_zL e) ad (vzL v)) (plus (e_zU e) ad (vzU v)) (plus (e_vL e) ad (vvL v)) (plus (e_vU e) ad (vvU v)).
Definition dz (v : iv) (b : bd) : vec := match b with XL => vzL v | XU => vzU v | SL => vvL v | SU => vvU v end.
(** sum over all bounds of (change of the slack) * (change of the multiplier) *)
Definition cross (v : iv) : R := sumb (fun b => sumn (nb P b) (fun k => dsl P b (vx v) (vs v) k * (dz v b).[k])).

(** [sv n alpha rhs] is alpha times the solution of the Newton system, perturbed by d, with right hand side rhs (C64) *)
Definition solver_ok (Y : psys) (d : deltas) (sv : nat -> R -> iv -> option iv) : Prop :=
  forall n al rhs v, iv_ok (n_x P) (n_s P) (n_c P) Y rhs -> sv n al rhs = Some v ->
    exists w, solves (n_x P) (n_s P) (n_c P) Y d rhs w /\ iv_is (n_x P) (n_s P) (n_c P) Y v (lin2 al (of_iv w) 0 (of_iv w)).

(** the norm of the quality function, divided by the number of elements as the option says (not by zero) *)
Definition measure (k : AmuModel.qnorm) (n : nat) (fs : list fam) (r : R) : Prop :=
  let den := if Nat.eqb n 0 then 1 else INR n in
  match k with
  | AmuModel.NM_1 => exists t, norm_is N1 fs t /\ r = t / den
  | AmuModel.NM_2SQ => exists t, norm_is N2 fs t /\ r = t * t / den
  | AmuModel.NM_MAX => norm_is NMax fs r
  | AmuModel.NM_2 => exists t, norm_is N2 fs t /\ r = t / sqrt den
  end.
Definition quality_of (ce : AmuModel.qcent) (bal : bool) (d p c xi : R) : R :=
  d + p + c
  + match ce with AmuModel.CEN_NONE => 0 | AmuModel.CEN_LOG => - c * ln xi | AmuModel.CEN_RECIPROCAL => c / xi
             | AmuModel.CEN_CUBED_RECIPROCAL => c / (xi * xi * xi) end
  + (if bal then (Rmax 0 (Rmax d p - c)) * (Rmax 0 (Rmax d p - c)) * (Rmax 0 (Rmax d p - c)) else 0).

(** The dual and primal infeasibility, linearised at e, after the step v: with length ad in the dual, ap in the primal equations. *)
Definition lin_dual (W : mat) (m ad : R) (e : env) (v : iv) : list fam :=
  [(n_x P, fun j => glag_x P m e j + ad * (Jv W (vx v) j + JTv (fn_Jc P (e_x e)) (vyc v) j + JTv (fn_Jd P (e_x e)) (vyd v) j
                      - scat (pos P XL) (fun k => (vzL v).[k]) j + scat (pos P XU) (fun k => (vzU v).[k]) j));
   (n_s P, fun j => glag_s P e j + ad * (- (vyd v).[j] - scat (pos P SL) (fun k => (vvL v).[k]) j + scat (pos P SU) (fun k => (vvU v).[k]) j))].
Definition lin_primal (ap : R) (e : env) (v : iv) : list fam :=
  [(n_c P, fun j => (fn_c P (e_x e)).[j] + ap * Jv (fn_Jc P (e_x e)) (vx v) j);
   (n_s P, fun j => (fn_d P (e_x e)).[j] - (e_s e).[j] + ap * (Jv (fn_Jd P (e_x e)) (vx v) j - (vs v).[j]))].
Definition dual_fams (m : R) (e : env) : list fam := [(n_x P, glag_x P m e); (n_s P, glag_s P e)].
Definition primal_fams (e : env) : list fam :=
  [(n_c P, fun j => (fn_c P (e_x e)).[j]); (n_s P, fun j => (fn_d P (e_x e)).[j] - (e_s e).[j])].
Definition compl_fams (e : env) : list fam := map (fun b => (nb P b, fun k => sl P B b e k * mul b e k)) all_b.

(** objective function and constraints are affine linear *)
Definition affine_nlp : Prop :=
  dep_mu P = false /\ (forall x y, fn_g P x = fn_g P y) /\ (forall x y, fn_Jc P x = fn_Jc P y) /\ (forall x y, fn_Jd P x = fn_Jd P y) /\
  (forall x d t j, length x = n_x P -> length d = n_x P -> (j < n_c P)%nat -> (fn_c P (plus x t d)).[j] = (fn_c P x).[j] + t * Jv (fn_Jc P x) d j) /\
  (forall x d t j, length x = n_x P -> length d = n_x P -> (j < n_s P)%nat -> (fn_d P (plus x t d)).[j] = (fn_d P x).[j] + t * Jv (fn_Jd P x) d j).
End Spec.
