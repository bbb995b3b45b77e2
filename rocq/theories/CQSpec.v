(** What the quantities are: the formulas a user of the algorithm expects, for values of the
    iterates, without caches and without the vector operations of the model. *)
From Coq Require Import Reals List Arith Bool.
From Verif Require Import CQModel.
Import ListNotations.
Open Scope R_scope.

(** sum over i < n *)
Fixpoint sumn (n : nat) (f : nat -> R) : R := match n with O => 0 | S n => sumn n f + f n end.
(** v has n elements, f 0 .. f (n-1) *)
Definition vec_is (v : vec) (n : nat) (f : nat -> R) : Prop := length v = n /\ forall i, (i < n)%nat -> nth i v 0 = f i.
(** (sum over the bounds k that are at position i) *)
Definition scat (p : list nat) (f : nat -> R) (i : nat) : R :=
  sumn (length p) (fun k => if Nat.eqb (nth k p O) i then f k else 0).

(** a family of n numbers, and the norm of several of them together *)
Definition fam := (nat * (nat -> R))%type.
Definition norm_is (t : norm) (fs : list fam) (r : R) : Prop :=
  match t with
  | N1 => r = fold_right Rplus 0 (map (fun f : fam => sumn (fst f) (fun i => Rabs (snd f i))) fs)
  | N2 => r = sqrt (fold_right Rplus 0 (map (fun f : fam => sumn (fst f) (fun i => snd f i * snd f i)) fs))
  | NMax => (forall f i, In f fs -> (i < fst f)%nat -> Rabs (snd f i) <= r) /\
            (r = 0 \/ exists f i, In f fs /\ (i < fst f)%nat /\ r = Rabs (snd f i))
  end.

(** the values of an iterate *)
Record env := Env { e_x : vec; e_s : vec; e_yc : vec; e_yd : vec; e_zL : vec; e_zU : vec; e_vL : vec; e_vU : vec }.

Section Spec.
Variables (P : nlp) (o : opts) (B : bd -> vec).
Local Notation "v .[ i ]" := (nth i v 0) (at level 1, format "v .[ i ]").
Local Notation pos := (pos P).

Definition obj (m : R) (x : vec) : R := if dep_mu P then fn_f_mu P x m else fn_f P x.
Definition gobj (m : R) (x : vec) : vec := if dep_mu P then fn_g_mu P x m else fn_g P x.
Definition hess (m : R) (x yc yd : vec) : mat := if dep_mu P then fn_h_mu P x 1 yc yd m else fn_h P x 1 yc yd.

(** distance to the k-th bound of kind b *)
Definition nb (b : bd) : nat := length (pos b).
Definition sl (b : bd) (e : env) (k : nat) : R :=
  match b with
  | XL => (e_x e).[nth k (pos b) O] - (B b).[k]
  | XU => (B b).[k] - (e_x e).[nth k (pos b) O]
  | SL => (e_s e).[nth k (pos b) O] - (B b).[k]
  | SU => (B b).[k] - (e_s e).[nth k (pos b) O]
  end.
Definition mul (b : bd) (e : env) (k : nat) : R :=
  match b with XL => (e_zL e).[k] | XU => (e_zU e).[k] | SL => (e_vL e).[k] | SU => (e_vU e).[k] end.
Definition all_b : list bd := [XL; XU; SL; SU].
Definition sumb (f : bd -> R) : R := f XL + f XU + f SL + f SU.
Definition ntot : nat := (nb XL + nb XU + nb SL + nb SU)%nat.

(** 1 for a bound of a variable that is bounded on this side only, otherwise 0 *)
Definition other (b : bd) : bd := match b with XL => XU | XU => XL | SL => SU | SU => SL end.
Definition ind (b : bd) (k : nat) : R := if existsb (Nat.eqb (nth k (pos b) O)) (pos (other b)) then 0 else 1.

(** barrier function with the damping term for one-sided bounds, and its gradient *)
Definition barrier (m : R) (e : env) : R :=
  obj m (e_x e) - m * sumb (fun b => sumn (nb b) (fun k => ln (sl b e k)))
  + kappa_d o * m * sumb (fun b => sumn (nb b) (fun k => ind b k * sl b e k)).
Definition dampg_x (i : nat) : R := kappa_d o * (scat (pos XL) (ind XL) i - scat (pos XU) (ind XU) i).
Definition dampg_s (i : nat) : R := kappa_d o * (scat (pos SL) (ind SL) i - scat (pos SU) (ind SU) i).
Definition gbar_x (m : R) (e : env) (i : nat) : R :=
  (gobj m (e_x e)).[i] - m * scat (pos XL) (fun k => 1 / sl XL e k) i + m * scat (pos XU) (fun k => 1 / sl XU e k) i + m * dampg_x i.
Definition gbar_s (m : R) (e : env) (i : nat) : R :=
  - m * scat (pos SL) (fun k => 1 / sl SL e k) i + m * scat (pos SU) (fun k => 1 / sl SU e k) i + m * dampg_s i.

(** products with the Jacobians *)
Definition Jv (J : mat) (v : vec) (i : nat) : R := sumn (mc J) (fun j => ment J i j * v.[j]).
Definition JTv (J : mat) (v : vec) (j : nat) : R := sumn (mr J) (fun i => ment J i j * v.[i]).
(** gradient of the Lagrangian *)
Definition glag_x (m : R) (e : env) (i : nat) : R :=
  (gobj m (e_x e)).[i] + JTv (fn_Jc P (e_x e)) (e_yc e) i + JTv (fn_Jd P (e_x e)) (e_yd e) i
  - scat (pos XL) (fun k => (e_zL e).[k]) i + scat (pos XU) (fun k => (e_zU e).[k]) i.
Definition glag_s (e : env) (i : nat) : R :=
  - (e_yd e).[i] - scat (pos SL) (fun k => (e_vL e).[k]) i + scat (pos SU) (fun k => (e_vU e).[k]) i.

Definition infeas (t : norm) (e : env) : R -> Prop :=
  norm_is t [(n_c P, fun i => (fn_c P (e_x e)).[i]); (n_s P, fun i => (fn_d P (e_x e)).[i] - (e_s e).[i])].
Definition dinfeas (t : norm) (m : R) (e : env) : R -> Prop :=
  norm_is t [(n_x P, glag_x m e); (n_s P, glag_s e)].
Definition un_dinfeas (t : norm) (m : R) (e : env) : R -> Prop :=
  norm_is t [(n_x P, fun i => glag_x m e i * sx P i / so P); (n_s P, fun i => glag_s e i * sd P i / so P)].
(** violation of the constraints of the NLP (slack variables not involved) *)
Definition nlpviol (t : norm) (e : env) : R -> Prop :=
  let d := fn_d P (e_x e) in
  norm_is t [(n_c P, fun i => (fn_c P (e_x e)).[i]);
             (nb SL, fun k => Rmax 0 ((B SL).[k] - d.[nth k (pos SL) O]));
             (nb SU, fun k => Rmax 0 (d.[nth k (pos SU) O] - (B SU).[k]))].
Definition un_nlpviol (t : norm) (e : env) : R -> Prop :=
  let d := fn_d P (e_x e) in
  norm_is t [(n_c P, fun i => (fn_c P (e_x e)).[i] / sc P i);
             (nb SL, fun k => Rmax 0 (((B SL).[k] - d.[nth k (pos SL) O]) / sd P (nth k (pos SL) O)));
             (nb SU, fun k => Rmax 0 ((d.[nth k (pos SU) O] - (B SU).[k]) / sd P (nth k (pos SU) O)))].
(** violation of the bounds as the user gave them; zero where they were not relaxed *)
Definition oviolL (e : env) (k : nat) : R :=
  match orig_xL P with None => 0 | Some l => Rmax 0 (l.[k] - (e_x e).[nth k (pos XL) O] / sx P (nth k (pos XL) O)) end.
Definition oviolU (e : env) (k : nat) : R :=
  match orig_xU P with None => 0 | Some l => Rmax 0 ((e_x e).[nth k (pos XU) O] / sx P (nth k (pos XU) O) - l.[k]) end.
Definition sviolL (e : env) (k : nat) : R :=
  match orig_xL P with None => 0 | Some l => Rmax 0 (l.[k] * sx P (nth k (pos XL) O) - (e_x e).[nth k (pos XL) O]) end.
Definition sviolU (e : env) (k : nat) : R :=
  match orig_xU P with None => 0 | Some l => Rmax 0 ((e_x e).[nth k (pos XU) O] - l.[k] * sx P (nth k (pos XU) O)) end.
(** complementarity, relaxed by m *)
Definition compl (t : norm) (m : R) (e : env) : R -> Prop :=
  norm_is t (map (fun b => (nb b, fun k => sl b e k * mul b e k - m)) all_b).
(** ratio of the smallest to the average complementarity, at most 1 *)
Definition centr (e : env) (r : R) : Prop :=
  (ntot = O /\ r = 0) \/
  exists mn b0 k0, (k0 < nb b0)%nat /\ mn = sl b0 e k0 * mul b0 e k0 /\
    (forall b k, (k < nb b)%nat -> mn <= sl b e k * mul b e k) /\
    r = Rmin 1 (mn / (sumb (fun b => sumn (nb b) (fun k => Rabs (sl b e k * mul b e k))) / INR ntot)).
Definition avrg (e : env) : R :=
  if Nat.eqb ntot 0 then 0 else sumb (fun b => sumn (nb b) (fun k => mul b e k * sl b e k)) / INR ntot.
Definition vsum (v : vec) : R := sumn (length v) (fun i => Rabs v.[i]).
Definition zsum (e : env) : R := vsum (e_zL e) + vsum (e_zU e) + vsum (e_vL e) + vsum (e_vU e).
(** s_d and s_c of the implementation paper *)
Definition s_c (e : env) : R := if Nat.eqb ntot 0 then 1 else Rmax (s_max o) (zsum e / INR ntot) / s_max o.
Definition s_d (e : env) : R :=
  if Nat.eqb (n_c P + n_s P + ntot) 0 then 1
  else Rmax (s_max o) ((vsum (e_yc e) + vsum (e_yd e) + zsum e) / INR (n_c P + n_s P + ntot)) / s_max o.
Definition nlperr (m : R) (e : env) (r : R) : Prop :=
  exists a b c, dinfeas NMax m e a /\ nlpviol NMax e b /\ compl NMax (mu_target o) e c /\
    r = Rmax (Rmax (a / s_d e) b) (c / s_c e).
Definition un_nlperr (m : R) (e : env) (r : R) : Prop :=
  exists a b c, un_dinfeas NMax m e a /\ un_nlpviol NMax e b /\ compl NMax (mu_target o) e c /\
    r = Rmax (Rmax a b) (Rabs (c / so P)).
Definition barerr (m : R) (e : env) (r : R) : Prop :=
  exists a b c, dinfeas NMax m e a /\ infeas NMax e b /\ compl NMax m e c /\
    r = Rmax (Rmax (a / s_d e) b) (c / s_c e).
Definition pderr (m0 m : R) (e : env) (r : R) : Prop :=
  exists a b c, dinfeas N1 m0 e a /\ infeas N1 e b /\ compl N1 m e c /\
    r = a / INR (n_x P + n_s P) + (if Nat.eqb (n_c P + n_s P) 0 then 0 else b / INR (n_c P + n_s P))
        + (if Nat.eqb ntot 0 then 0 else c / INR ntot).
(** r is the largest step in [0,1] keeping the fraction 1-tau of every q k, when it moves by r * dq k *)
Definition ftb (tau : R) (fs : list (nat * (nat -> R) * (nat -> R))) (r : R) : Prop :=
  let ok := fun a => forall n q dq k, In (n, q, dq) fs -> (k < n)%nat -> q k + a * dq k >= (1 - tau) * q k in
  0 <= r <= 1 /\ ok r /\ forall a, 0 <= a <= 1 -> ok a -> a <= r.
Definition dsl (b : bd) (dx ds : vec) (k : nat) : R :=
  match b with
  | XL => dx.[nth k (pos b) O] | XU => - dx.[nth k (pos b) O]
  | SL => ds.[nth k (pos b) O] | SU => - ds.[nth k (pos b) O]
  end.
Definition pftb (tau : R) (e : env) (dx ds : vec) : R -> Prop :=
  ftb tau (map (fun b => (nb b, sl b e, dsl b dx ds)) all_b).
Definition dftb (tau : R) (e : env) (d : bd -> vec) : R -> Prop :=
  ftb tau (map (fun b => (nb b, mul b e, fun k => (d b).[k])) all_b).
Definition sftb (tau : R) (e : env) (d : bd -> vec) : R -> Prop :=
  ftb tau (map (fun b => (nb b, sl b e, fun k => (d b).[k])) all_b).
Definition sigma_x (e : env) (i : nat) : R :=
  scat (pos XL) (fun k => mul XL e k / sl XL e k) i + scat (pos XU) (fun k => mul XU e k / sl XU e k) i.
Definition sigma_s (e : env) (i : nat) : R :=
  scat (pos SL) (fun k => mul SL e k / sl SL e k) i + scat (pos SU) (fun k => mul SU e k / sl SU e k) i.
Definition gbtd (m : R) (e : env) (dx ds : vec) : R :=
  sumn (n_x P) (fun i => gbar_x m e i * dx.[i]) + sumn (n_s P) (fun i => gbar_s m e i * ds.[i]).

(** every variable with a bound is at least the machine precision away from it *)
Definition interior (e : env) : Prop := forall b k, (k < nb b)%nat -> mach_eps o <= sl b e k.
(** dimensions of the parts of an iterate *)
Definition dims_ok (e : env) : Prop :=
  length (e_x e) = n_x P /\ length (e_s e) = n_s P /\ length (e_yc e) = n_c P /\ length (e_yd e) = n_s P /\
  length (e_zL e) = nb XL /\ length (e_zU e) = nb XU /\ length (e_vL e) = nb SL /\ length (e_vU e) = nb SU.
End Spec.

(** the NLP returns objects of the right dimension, the bound positions are distinct, the options are in their ranges *)
Record nlp_ok (P : nlp) : Prop := {
  ok_g : forall x, length (fn_g P x) = n_x P; ok_gm : forall x m, length (fn_g_mu P x m) = n_x P;
  ok_c : forall x, length (fn_c P x) = n_c P; ok_d : forall x, length (fn_d P x) = n_s P;
  ok_Jc : forall x, mr (fn_Jc P x) = n_c P /\ mc (fn_Jc P x) = n_x P;
  ok_Jd : forall x, mr (fn_Jd P x) = n_s P /\ mc (fn_Jd P x) = n_x P;
  ok_pos : forall b i, In i (pos P b) -> (i < match b with XL | XU => n_x P | _ => n_s P end)%nat;
  ok_nd : forall b, NoDup (pos P b);
  ok_so : so P <> 0; ok_sx : forall i, 0 < sx P i; ok_sd : forall i, 0 < sd P i;
  ok_hx : have_x_scaling P = false -> forall i, sx P i = 1;
  ok_oxL : forall l, orig_xL P = Some l -> length l = length (pxL P);
  ok_oxU : forall l, orig_xU P = Some l -> length l = length (pxU P)
}.
Record opts_ok (o : opts) : Prop := {
  ok_eps : 0 < mach_eps o; ok_tiny : 0 < mach_tiny o <= mach_eps o;
  ok_kappa : 0 <= kappa_d o; ok_smax : 0 < s_max o; ok_move : 0 <= slack_move o
}.

(** * Histories *)
Definition envof (s : st) (i : iter) : env :=
  Env (val s (i_x i)) (val s (i_s i)) (val s (i_yc i)) (val s (i_yd i)) (val s (i_zL i)) (val s (i_zU i)) (val s (i_vL i)) (val s (i_vU i)).
Definition allocated (s : st) (i : iter) : Prop :=
  Forall (fun t => (t < length (store s))%nat) [i_x i; i_s i; i_yc i; i_yd i; i_zL i; i_zU i; i_vL i; i_vU i].
(** every question a client can ask *)
Inductive query :=
| Q_slack (w : bool) (b : bd) | Q_f (w : bool) | Q_unf (w : bool) | Q_gradf (w : bool) | Q_bar (w : bool) | Q_gbx | Q_gbs | Q_gkx | Q_gks
| Q_c (w : bool) | Q_unc (w : bool) | Q_d (w : bool) | Q_und | Q_dms (w : bool) | Q_jc (w : bool) | Q_jd (w : bool)
| Q_jcv (t : nat) | Q_jdv (t : nat) | Q_jcT (w : bool) (t : nat) | Q_jdT (w : bool) (t : nat)
| Q_nlpcv (t : norm) | Q_uncv (w : bool) (t : norm) | Q_unoL | Q_unoU | Q_unobv (t : norm) | Q_oL | Q_oU | Q_obv (t : norm) | Q_h
| Q_glx (w : bool) | Q_gls (w : bool) | Q_gldx | Q_glds | Q_cmpl (w : bool) (b : bd) | Q_relc (b : bd)
| Q_pinf (w : bool) (t : norm) | Q_dinf (w : bool) (t : norm) | Q_undinf (t : norm) | Q_compl (w : bool) (m : R) (t : norm) | Q_uncompl (m : R) (t : norm)
| Q_centr | Q_nlperr | Q_unnlperr | Q_barerr | Q_pde (w : bool) (m : R)
| Q_pfrac (tau : R) (t1 t2 : nat) | Q_dfrac (tau : R) (t1 t2 t3 t4 : nat) | Q_sfrac (tau : R) (t1 t2 t3 t4 : nat)
| Q_sigx | Q_sigs | Q_avrg (w : bool) | Q_gbtd | Q_reset.
Definition after {A} (m : M A) (s : st) : st := snd (m s).
Definition ask (P : nlp) (o : opts) (q : query) : st -> st :=
  match q with
  | Q_slack w b => after (cq_slack P o w b) | Q_f w => after (cq_f P w) | Q_unf w => after (cq_unscaled_f P w)
  | Q_gradf w => after (cq_grad_f P w) | Q_bar w => after (cq_barrier_obj P o w)
  | Q_gbx => after (cq_grad_barrier_x P o) | Q_gbs => after (cq_grad_barrier_s P o)
  | Q_gkx => after (cq_grad_kappa_x P o) | Q_gks => after (cq_grad_kappa_s P o)
  | Q_c w => after (cq_c P w) | Q_unc w => after (cq_unscaled_c P w) | Q_d w => after (cq_d P w) | Q_und => after (cq_unscaled_d P)
  | Q_dms w => after (cq_d_minus_s P w) | Q_jc w => after (cq_jac_c P w) | Q_jd w => after (cq_jac_d P w)
  | Q_jcv t => after (cq_jac_c_times P t) | Q_jdv t => after (cq_jac_d_times P t)
  | Q_jcT w t => after (cq_jac_cT_times P w t) | Q_jdT w t => after (cq_jac_dT_times P w t)
  | Q_nlpcv t => after (cq_nlp_cv P t) | Q_uncv w t => after (cq_unscaled_nlp_cv P w t)
  | Q_unoL => after (cq_un_orig_L P) | Q_unoU => after (cq_un_orig_U P) | Q_unobv t => after (cq_un_orig_bv P t)
  | Q_oL => after (cq_orig_L P) | Q_oU => after (cq_orig_U P) | Q_obv t => after (cq_orig_bv P t) | Q_h => after (cq_hessian P)
  | Q_glx w => after (cq_grad_lag_x P w) | Q_gls w => after (cq_grad_lag_s P w)
  | Q_gldx => after (cq_grad_lag_damp_x P o) | Q_glds => after (cq_grad_lag_damp_s P o)
  | Q_cmpl w b => after (cq_compl P o w b) | Q_relc b => after (cq_relaxed_compl P o b)
  | Q_pinf w t => after (cq_primal_inf P w t) | Q_dinf w t => after (cq_dual_inf P w t) | Q_undinf t => after (cq_unscaled_dual_inf P t)
  | Q_compl w m t => after (cq_complementarity P o w m t) | Q_uncompl m t => after (cq_unscaled_compl P o m t)
  | Q_centr => after (cq_centrality P o) | Q_nlperr => after (cq_nlp_error P o) | Q_unnlperr => after (cq_unscaled_nlp_error P o)
  | Q_barerr => after (cq_barrier_error P o) | Q_pde w m => after (cq_pd_error P o w m)
  | Q_pfrac tau t1 t2 => after (cq_primal_frac P o tau t1 t2) | Q_dfrac tau t1 t2 t3 t4 => after (cq_dual_frac tau t1 t2 t3 t4)
  | Q_sfrac tau t1 t2 t3 t4 => after (cq_unc_slack_frac P o tau t1 t2 t3 t4)
  | Q_sigx => after (cq_sigma_x P o) | Q_sigs => after (cq_sigma_s P o) | Q_avrg w => after (cq_avrg_compl P o w)
  | Q_gbtd => after (cq_grad_barr_delta P o) | Q_reset => after reset_adjusted
  end.
(** the vectors a question is asked about exist and have the right dimension *)
Definition asks_ok (P : nlp) (s : st) (q : query) : Prop :=
  let vec_ok t n := (t < length (store s))%nat /\ length (val s t) = n in
  match q with
  | Q_jcv t | Q_jdv t => vec_ok t (n_x P)
  | Q_jcT _ t => vec_ok t (n_c P) | Q_jdT _ t => vec_ok t (n_s P)
  | Q_pfrac tau t1 t2 => 0 <= tau <= 1 /\ vec_ok t1 (n_x P) /\ vec_ok t2 (n_s P)
  | Q_dfrac tau t1 t2 t3 t4 | Q_sfrac tau t1 t2 t3 t4 =>
      0 <= tau <= 1 /\ vec_ok t1 (nb P XL) /\ vec_ok t2 (nb P XU) /\ vec_ok t3 (nb P SL) /\ vec_ok t4 (nb P SU)
  | _ => True
  end.

(** What can happen. [safe]: the bounds are never adjusted and every iterate is in the interior.
    [fixmu]: the barrier parameter never changes. *)
Section Hist.
Variables (P : nlp) (o : opts) (safe fixmu : bool) (B0 : bd -> vec) (mu0 : R).
Definition iter_ok (s : st) (i : iter) : Prop :=
  allocated s i /\ dims_ok P (envof s i) /\ (safe = true -> interior P o B0 (envof s i)).
Inductive step (s : st) : st -> Prop :=
| S_new v : step s (set_store s (store s ++ [v]))                             (* somebody creates a vector *)
| S_trial i : iter_ok s i ->
    step s (St (store s) (curr s) i (delta s) (mu s) (bnd s) (nca s) (vca s) (mca s) (pca s) (damp s) (nadj s))
| S_delta i : allocated s i -> dims_ok P (envof s i) ->
    step s (St (store s) (curr s) (trial s) i (mu s) (bnd s) (nca s) (vca s) (mca s) (pca s) (damp s) (nadj s))
| S_accept :
    step s (St (store s) (trial s) (trial s) (delta s) (mu s) (bnd s) (nca s) (vca s) (mca s) (pca s) (damp s) (nadj s))
| S_mu m : fixmu = false ->
    step s (St (store s) (curr s) (trial s) (delta s) m (bnd s) (nca s) (vca s) (mca s) (pca s) (damp s) (nadj s))
| S_bounds b : safe = false -> (forall k, length (b k) = nb P k) ->           (* AdjustVariableBounds *)
    step s (St (store s) (curr s) (trial s) (delta s) (mu s) b (nca s) (vca s) (mca s) (pca s) (damp s) (nadj s))
| S_drop f g h p :                                                            (* cached results are invalidated *)
    step s (St (store s) (curr s) (trial s) (delta s) (mu s) (bnd s)
              (fun c => filter (f c) (nca s c)) (fun c => filter (g c) (vca s c)) (fun c => filter (h c) (mca s c))
              (filter p (pca s)) (damp s) (nadj s))
| S_ask q : asks_ok P s q -> step s (ask P o q s).
Definition start (s : st) : Prop :=
  (forall c, nca s c = []) /\ (forall c, vca s c = []) /\ (forall c, mca s c = []) /\ pca s = [] /\ damp s = None /\
  (forall b, bnd s b = B0 b /\ length (B0 b) = nb P b) /\ mu s = mu0 /\
  iter_ok s (curr s) /\ iter_ok s (trial s) /\ allocated s (delta s) /\ dims_ok P (envof s (delta s)).
Inductive reach : st -> Prop :=
| reach_start s : start s -> reach s
| reach_step s s' : reach s -> step s s' -> reach s'.
End Hist.

(** the answer to a question: a number, or the values of the vector that is returned *)
Definition ansN {A} (m : M A) (s : st) : A := fst (m s).
Definition ansV (m : M nat) (s : st) : vec := val (snd (m s)) (fst (m s)).
Definition ansOV (m : M (option nat)) (s : st) : option vec := match fst (m s) with Some t => Some (val (snd (m s)) t) | None => None end.
(** the values of the current (false) or trial (true) iterate and of the search direction *)
Definition E (s : st) (w : bool) : env := if w then envof s (trial s) else envof s (curr s).
Definition D (s : st) : env := envof s (delta s).
(** a vector that exists and has the right dimension *)
Definition has (s : st) (t n : nat) : Prop := (t < length (store s))%nat /\ length (val s t) = n.
