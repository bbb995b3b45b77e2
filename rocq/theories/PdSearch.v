(** The search direction: Newton's method for the barrier problem. *)
From Coq Require Import Reals List Arith Bool Lra Lia.
From Verif Require Import CQModel CQSpec CQVec PdModel PdSpec PdAlg PdProofs PdLoop.
Import ListNotations.
Open Scope R_scope.
Local Notation "v .[ i ]" := (nth i v 0) (at level 1, format "v .[ i ]").

(** The matrix data and the vectors the search direction is computed from are those of the point e, the barrier
    parameter m and the matrix W (C57, C58, C60 are about the questions that return them). *)
Record at_point (P : nlp) (o : opts) (B : bd -> vec) (m : R) (e : env) (W : mat) (Y : psys) (q : cqv) : Prop := {
  t_W : y_W Y = W; t_Wd : mr W = n_x P /\ mc W = n_x P;
  t_Jc : y_Jc Y = fn_Jc P (e_x e); t_Jd : y_Jd Y = fn_Jd P (e_x e);
  t_pos : y_pxL Y = pos P XL /\ y_pxU Y = pos P XU /\ y_pdL Y = pos P SL /\ y_pdU Y = pos P SU;
  t_z : y_zL Y = e_zL e /\ y_zU Y = e_zU e /\ y_vL Y = e_vL e /\ y_vU Y = e_vU e;
  t_sl : vec_is (y_sxL Y) (nb P XL) (sl P B XL e) /\ vec_is (y_sxU Y) (nb P XU) (sl P B XU e) /\
         vec_is (y_ssL Y) (nb P SL) (sl P B SL e) /\ vec_is (y_ssU Y) (nb P SU) (sl P B SU e);
  t_sig : vec_is (y_sigx Y) (n_x P) (sigma_x P B e) /\ vec_is (y_sigs Y) (n_s P) (sigma_s P B e);
  t_gx : vec_is (q_gx q) (n_x P) (fun i => glag_x P m e i + m * dampg_x P o i);
  t_gs : vec_is (q_gs q) (n_s P) (fun i => glag_s P e i + m * dampg_s P o i);
  t_c : vec_is (q_c q) (n_c P) (fun i => (fn_c P (e_x e)).[i]);
  t_dms : vec_is (q_dms q) (n_s P) (fun i => (fn_d P (e_x e)).[i] - (e_s e).[i]);
  t_rc : vec_is (q_zL q) (nb P XL) (fun k => sl P B XL e k * mul XL e k - m) /\ vec_is (q_zU q) (nb P XU) (fun k => sl P B XU e k * mul XU e k - m) /\
         vec_is (q_vL q) (nb P SL) (fun k => sl P B SL e k * mul SL e k - m) /\ vec_is (q_vU q) (nb P SU) (fun k => sl P B SU e k * mul SU e k - m)
}.

(** v is the Newton step from e for the barrier problem with parameter m, perturbations d, Hessian W;
    [t b k]: second order term in the k-th complementarity condition of kind b (zero for the plain Newton step) *)
Definition newton_step (P : nlp) (o : opts) (B : bd -> vec) (m : R) (e : env) (W : mat) (d : deltas) (t : bd -> nat -> R) (v : iv) : Prop :=
  (length (vx v) = n_x P /\ length (vs v) = n_s P /\ length (vyc v) = n_c P /\ length (vyd v) = n_s P /\
   length (vzL v) = nb P XL /\ length (vzU v) = nb P XU /\ length (vvL v) = nb P SL /\ length (vvU v) = nb P SU) /\
  (forall i, (i < n_x P)%nat ->
     (glag_x P m e i + m * dampg_x P o i)
     + (Jv W (vx v) i + d_x d * (vx v).[i] + JTv (fn_Jc P (e_x e)) (vyc v) i + JTv (fn_Jd P (e_x e)) (vyd v) i
        - scat (pos P XL) (fun k => (vzL v).[k]) i + scat (pos P XU) (fun k => (vzU v).[k]) i) = 0) /\
  (forall i, (i < n_s P)%nat ->
     (glag_s P e i + m * dampg_s P o i)
     + (d_s d * (vs v).[i] - (vyd v).[i] - scat (pos P SL) (fun k => (vvL v).[k]) i + scat (pos P SU) (fun k => (vvU v).[k]) i) = 0) /\
  (forall i, (i < n_c P)%nat -> (fn_c P (e_x e)).[i] + Jv (fn_Jc P (e_x e)) (vx v) i - d_c d * (vyc v).[i] = 0) /\
  (forall i, (i < n_s P)%nat -> (fn_d P (e_x e)).[i] - (e_s e).[i] + Jv (fn_Jd P (e_x e)) (vx v) i - (vs v).[i] - d_d d * (vyd v).[i] = 0) /\
  (forall k, (k < nb P XL)%nat -> sl P B XL e k * mul XL e k + t XL k + mul XL e k * (vx v).[nth k (pos P XL) O] + sl P B XL e k * (vzL v).[k] = m) /\
  (forall k, (k < nb P XU)%nat -> sl P B XU e k * mul XU e k + t XU k - mul XU e k * (vx v).[nth k (pos P XU) O] + sl P B XU e k * (vzU v).[k] = m) /\
  (forall k, (k < nb P SL)%nat -> sl P B SL e k * mul SL e k + t SL k + mul SL e k * (vs v).[nth k (pos P SL) O] + sl P B SL e k * (vvL v).[k] = m) /\
  (forall k, (k < nb P SU)%nat -> sl P B SU e k * mul SU e k + t SU k - mul SU e k * (vs v).[nth k (pos P SU) O] + sl P B SU e k * (vvU v).[k] = m).

(** Mehrotra's second order term: (change of the slack) * (change of the multiplier) in the affine step *)
Definition second_order (P : nlp) (aff : iv) (b : bd) (k : nat) : R :=
  match b with
  | XL => (vx aff).[nth k (pos P XL) O] * (vzL aff).[k] | XU => - (vx aff).[nth k (pos P XU) O] * (vzU aff).[k]
  | SL => (vs aff).[nth k (pos P SL) O] * (vvL aff).[k] | SU => - (vs aff).[nth k (pos P SU) O] * (vvU aff).[k]
  end.
Definition iv_dims (P : nlp) (v : iv) : Prop :=
  length (vx v) = n_x P /\ length (vs v) = n_s P /\ length (vyc v) = n_c P /\ length (vyd v) = n_s P /\
  length (vzL v) = nb P XL /\ length (vzU v) = nb P XU /\ length (vvL v) = nb P SL /\ length (vvU v) = nb P SU.

Section S.
Variables (P : nlp) (o : opts) (B : bd -> vec) (m : R) (e : env) (W : mat) (Y : psys) (q : cqv).
Hypotheses (HP : nlp_ok P) (Ho : opts_ok o) (HD : dims_ok P e) (HI : interior P o B e) (T : at_point P o B m e W Y q).

Lemma slack_pos b k : (k < nb P b)%nat -> 0 < sl P B b e k.
Proof. intros Hk. pose proof (HI b k Hk). pose proof (ok_eps _ Ho). lra. Qed.

Lemma at_point_sys : sys_ok (n_x P) (n_s P) (n_c P) Y.
Proof.
  destruct T as [tW tWd tJc tJd (p1 & p2 & p3 & p4) (z1 & z2 & z3 & z4) (s1 & s2 & s3 & s4) (g1 & g2) _ _ _ _ _].
  destruct HD as (D1 & D2 & D3 & D4 & D5 & D6 & D7 & D8).
  unfold nb in *.
  constructor; rewrite ?p1, ?p2, ?p3, ?p4, ?z1, ?z2, ?z3, ?z4, ?tW, ?tJc, ?tJd; auto.
  - apply (ok_Jc _ HP).
  - apply (ok_Jd _ HP).
  - intros i [Hi|Hi]; [apply (ok_pos _ HP XL i Hi)|apply (ok_pos _ HP XU i Hi)].
  - intros i [Hi|Hi]; [apply (ok_pos _ HP SL i Hi)|apply (ok_pos _ HP SU i Hi)].
  - splits; [apply s1|apply s2|apply s3|apply s4].
  - splits; intros k Hk.
    + rewrite (proj2 s1) by exact Hk. pose proof (slack_pos XL k Hk). lra.
    + rewrite (proj2 s2) by exact Hk. pose proof (slack_pos XU k Hk). lra.
    + rewrite (proj2 s3) by exact Hk. pose proof (slack_pos SL k Hk). lra.
    + rewrite (proj2 s4) by exact Hk. pose proof (slack_pos SU k Hk). lra.
  - eapply vis_ext; [exact g1|]. intros i Hi. unfold sigma_x, mul. f_equal; apply scat_ext; intros k Hk; [rewrite (proj2 s1) by exact Hk|rewrite (proj2 s2) by exact Hk]; reflexivity.
  - eapply vis_ext; [exact g2|]. intros i Hi. unfold sigma_s, mul. f_equal; apply scat_ext; intros k Hk; [rewrite (proj2 s3) by exact Hk|rewrite (proj2 s4) by exact Hk]; reflexivity.
Qed.

Definition sot (mehrotra : bool) (aff : iv) (b : bd) (k : nat) : R := if mehrotra then second_order P aff b k else 0.
Lemma mehrotra_part_is p sg dz dx relc n nn f : length p = n -> vec_is relc n f -> length dz = n -> length dx = nn -> (forall i, In i p -> (i < nn)%nat) ->
  vec_is (mehrotra_part p sg dz dx relc) n (fun k => f k + sg * dx.[nth k p O] * dz.[k]).
Proof.
  intros Hp Hr Hz Hx Hin. unfold mehrotra_part. eapply vis_ext.
  - apply axpy_is; [exact Hr|]. apply emul_is; [|apply vis_self; exact Hz].
    eapply (ptmul_is p sg dx 0 dz _ (fun _ => 0)); [apply vis_self; exact Hx|exact Hin|symmetry; exact Hp|intros; ring].
  - intros k Hk. cbv beta. ring.
Qed.
Lemma search_rhs_is mehrotra aff : (mehrotra = true -> iv_dims P aff) ->
  iv_is (n_x P) (n_s P) (n_c P) Y (search_rhs Y q mehrotra aff)
    (Rows (fun i => glag_x P m e i + m * dampg_x P o i) (fun i => glag_s P e i + m * dampg_s P o i)
          (fun i => (fn_c P (e_x e)).[i]) (fun i => (fn_d P (e_x e)).[i] - (e_s e).[i])
          (fun k => sl P B XL e k * mul XL e k - m + sot mehrotra aff XL k) (fun k => sl P B XU e k * mul XU e k - m + sot mehrotra aff XU k)
          (fun k => sl P B SL e k * mul SL e k - m + sot mehrotra aff SL k) (fun k => sl P B SU e k * mul SU e k - m + sot mehrotra aff SU k)).
Proof.
  intros Ha. destruct T as [_ _ _ _ (p1 & p2 & p3 & p4) _ _ _ gx gs gc gd (r1 & r2 & r3 & r4)].
  unfold search_rhs, PdSpec.iv_is. cbn [w_x w_s w_c w_d w_zL w_zU w_vL w_vU]. unfold nb in *. rewrite p1, p2, p3, p4.
  destruct (Nat.ltb_spec 0 (length (pos P XL) + length (pos P XU) + length (pos P SL) + length (pos P SU))) as [N|N]; destruct mehrotra; cbn [andb sot].
  - destruct (Ha eq_refl) as (A1 & A2 & _ & _ & A5 & A6 & A7 & A8). unfold nb in *.
    cbn [vx vs vyc vyd vzL vzU vvL vvU]. splits; try assumption.
    + eapply vis_ext; [eapply mehrotra_part_is; [reflexivity|exact r1|exact A5|exact A1|apply (ok_pos _ HP XL)]|]. intros k Hk. cbn [second_order]. ring.
    + eapply vis_ext; [eapply mehrotra_part_is; [reflexivity|exact r2|exact A6|exact A1|apply (ok_pos _ HP XU)]|]. intros k Hk. cbn [second_order]. ring.
    + eapply vis_ext; [eapply mehrotra_part_is; [reflexivity|exact r3|exact A7|exact A2|apply (ok_pos _ HP SL)]|]. intros k Hk. cbn [second_order]. ring.
    + eapply vis_ext; [eapply mehrotra_part_is; [reflexivity|exact r4|exact A8|exact A2|apply (ok_pos _ HP SU)]|]. intros k Hk. cbn [second_order]. ring.
  - cbn [vx vs vyc vyd vzL vzU vvL vvU]. splits; try assumption; (eapply vis_ext; [eassumption|]); intros k Hk; cbv beta; ring.
  - cbn [vx vs vyc vyd vzL vzU vvL vvU]. splits; try assumption; (eapply vis_ext; [eassumption|]); intros k Hk; exfalso; lia.
  - cbn [vx vs vyc vyd vzL vzU vvL vvU]. splits; try assumption; (eapply vis_ext; [eassumption|]); intros k Hk; cbv beta; ring.
Qed.

(** minus a solution is the Newton step *)
Lemma solves_step d mehrotra aff w v : (mehrotra = true -> iv_dims P aff) ->
  solves (n_x P) (n_s P) (n_c P) Y d (search_rhs Y q mehrotra aff) w ->
  iv_is (n_x P) (n_s P) (n_c P) Y v (lin2 (-1) (of_iv w) 0 (of_iv w)) ->
  newton_step P o B m e W d (sot mehrotra aff) v.
Proof.
  intros Ha [_ S2] L. pose proof (search_rhs_is mehrotra aff Ha) as R1.
  pose proof at_point_sys as K.
  assert (N : iv_is (n_x P) (n_s P) (n_c P) Y (ivmap (vmap (Rmult (-1))) (search_rhs Y q mehrotra aff)) (newton Y d v)).
  { apply (newton_lin _ _ _ Y d K w w v (-1) 0 _ L).
    pose proof (iv_scal _ _ _ Y (-1) _ (iv_is_ok _ _ _ _ _ _ R1)) as Q.
    destruct S2 as ((_&S21)&(_&S22)&(_&S23)&(_&S24)&(_&S25)&(_&S26)&(_&S27)&(_&S28)).
    eapply iv_is_ext; [exact Q|..]; intros i Hi; unfold lin2, of_iv; cbn [w_x w_s w_c w_d w_zL w_zU w_vL w_vU];
      rewrite ?S21, ?S22, ?S23, ?S24, ?S25, ?S26, ?S27, ?S28 by exact Hi; ring. }
  pose proof (iv_scal _ _ _ Y (-1) _ (iv_is_ok _ _ _ _ _ _ R1)) as Q.
  destruct N as ((_&N1)&(_&N2)&(_&N3)&(_&N4)&(_&N5)&(_&N6)&(_&N7)&(_&N8)).
  destruct Q as ((_&Q1)&(_&Q2)&(_&Q3)&(_&Q4)&(_&Q5)&(_&Q6)&(_&Q7)&(_&Q8)).
  destruct R1 as ((_&R1)&(_&R2)&(_&R3)&(_&R4)&(_&R5)&(_&R6)&(_&R7)&(_&R8)).
  destruct (iv_is_ok _ _ _ _ _ _ L) as ((V1&_)&(V2&_)&(V3&_)&(V4&_)&(V5&_)&(V6&_)&(V7&_)&(V8&_)).
  destruct T as [tW _ tJc tJd (p1 & p2 & p3 & p4) (z1 & z2 & z3 & z4) (s1 & s2 & s3 & s4) _ _ _ _ _ _].
  destruct s1 as [_ s1]. destruct s2 as [_ s2]. destruct s3 as [_ s3]. destruct s4 as [_ s4]. unfold nb in *.
  unfold PdSpec.newton, lin2, of_iv in *. cbn [w_x w_s w_c w_d w_zL w_zU w_vL w_vU] in *.
  rewrite ?tW, ?tJc, ?tJd, ?p1, ?p2, ?p3, ?p4, ?z1, ?z2, ?z3, ?z4 in *.
  unfold newton_step, mul, nb. splits; try assumption; intros i Hi.
  - specialize (N1 i Hi). rewrite Q1, R1 in N1 by exact Hi. lra.
  - specialize (N2 i Hi). rewrite Q2, R2 in N2 by exact Hi. lra.
  - specialize (N3 i Hi). rewrite Q3, R3 in N3 by exact Hi. lra.
  - specialize (N4 i Hi). rewrite Q4, R4 in N4 by exact Hi. lra.
  - specialize (N5 i Hi). rewrite Q5, R5, s1 in N5 by exact Hi. unfold mul in N5. lra.
  - specialize (N6 i Hi). rewrite Q6, R6, s2 in N6 by exact Hi. unfold mul in N6. lra.
  - specialize (N7 i Hi). rewrite Q7, R7, s3 in N7 by exact Hi. unfold mul in N7. lra.
  - specialize (N8 i Hi). rewrite Q8, R8, s4 in N8 by exact Hi. unfold mul in N8. lra.
Qed.

(** transpose *)
Lemma sumn_swap n k f : sumn n (fun i => sumn k (fun j => f i j)) = sumn k (fun j => sumn n (fun i => f i j)).
Proof. induction n; cbn; [symmetry; apply sumn_0|]. rewrite IHn, <- sumn_plus. reflexivity. Qed.
Lemma adjoint J u x : sumn (mc J) (fun j => JTv J u j * x.[j]) = sumn (mr J) (fun i => u.[i] * Jv J x i).
Proof.
  unfold JTv, Jv. rewrite (sumn_ext (mc J) _ (fun j => sumn (mr J) (fun i => u.[i] * (ment J i j * x.[j])))).
  - rewrite sumn_swap. apply sumn_ext. intros i _. rewrite <- sumn_scal. reflexivity.
  - intros j _. rewrite Rmult_comm, <- sumn_scal. apply sumn_ext. intros i _. ring.
Qed.

(** the quadratic form of the model of the barrier function *)
Definition quad (d : deltas) (dx ds : vec) : R :=
  sumn (n_x P) (fun i => (Jv W dx i + (sigma_x P B e i + d_x d) * dx.[i]) * dx.[i]) + sumn (n_s P) (fun i => (sigma_s P B e i + d_s d) * ds.[i] * ds.[i]).

(** At a point that satisfies the constraints, without regularisation of the constraints: the slope of the barrier
    function along the Newton step is minus the quadratic form. *)
Lemma slope d v : newton_step P o B m e W d (fun _ _ => 0) v ->
  (forall i, (i < n_c P)%nat -> (fn_c P (e_x e)).[i] = 0) -> (forall i, (i < n_s P)%nat -> (fn_d P (e_x e)).[i] = (e_s e).[i]) ->
  d_c d = 0 -> d_d d = 0 ->
  gbtd P o B m e (vx v) (vs v) = - quad d (vx v) (vs v).
Proof.
  intros (_ & Nx & Ns & Nc & Nd & NzL & NzU & NvL & NvU) Fc Fd Dc Dd.
  assert (ZL : forall i, scat (pos P XL) (fun k => (vzL v).[k]) i = m * scat (pos P XL) (fun k => 1 / sl P B XL e k) i - scat (pos P XL) (fun k => (e_zL e).[k]) i
            - scat (pos P XL) (fun k => mul XL e k / sl P B XL e k) i * (vx v).[i]).
  { intros i. rewrite <- (scat_pos _ _ (fun j => (vx v).[j])). rewrite <- scat_scal.
    replace (scat (pos P XL) (fun k => m * (1 / sl P B XL e k)) i - scat (pos P XL) (fun k => (e_zL e).[k]) i - scat (pos P XL) (fun k => mul XL e k / sl P B XL e k * (vx v).[nth k (pos P XL) O]) i)
      with (scat (pos P XL) (fun k => 1 * (1 * (m * (1 / sl P B XL e k)) + (-1) * (e_zL e).[k]) + (-1) * (mul XL e k / sl P B XL e k * (vx v).[nth k (pos P XL) O])) i)
      by (rewrite !scat_lin; ring).
    apply scat_ext. intros k Hk. specialize (NzL k Hk). pose proof (slack_pos XL k Hk). unfold mul in *.
    apply (Rmult_eq_reg_l (sl P B XL e k)); [|lra]. replace (sl P B XL e k * (vzL v).[k]) with (m - sl P B XL e k * (e_zL e).[k] - (e_zL e).[k] * (vx v).[nth k (pos P XL) O]) by lra.
    field. lra. }
  assert (ZU : forall i, scat (pos P XU) (fun k => (vzU v).[k]) i = m * scat (pos P XU) (fun k => 1 / sl P B XU e k) i - scat (pos P XU) (fun k => (e_zU e).[k]) i
            + scat (pos P XU) (fun k => mul XU e k / sl P B XU e k) i * (vx v).[i]).
  { intros i. rewrite <- (scat_pos _ _ (fun j => (vx v).[j])). rewrite <- scat_scal.
    replace (scat (pos P XU) (fun k => m * (1 / sl P B XU e k)) i - scat (pos P XU) (fun k => (e_zU e).[k]) i + scat (pos P XU) (fun k => mul XU e k / sl P B XU e k * (vx v).[nth k (pos P XU) O]) i)
      with (scat (pos P XU) (fun k => 1 * (1 * (m * (1 / sl P B XU e k)) + (-1) * (e_zU e).[k]) + 1 * (mul XU e k / sl P B XU e k * (vx v).[nth k (pos P XU) O])) i)
      by (rewrite !scat_lin; ring).
    apply scat_ext. intros k Hk. specialize (NzU k Hk). pose proof (slack_pos XU k Hk). unfold mul in *.
    apply (Rmult_eq_reg_l (sl P B XU e k)); [|lra]. replace (sl P B XU e k * (vzU v).[k]) with (m - sl P B XU e k * (e_zU e).[k] + (e_zU e).[k] * (vx v).[nth k (pos P XU) O]) by lra.
    field. lra. }
  assert (VL : forall i, scat (pos P SL) (fun k => (vvL v).[k]) i = m * scat (pos P SL) (fun k => 1 / sl P B SL e k) i - scat (pos P SL) (fun k => (e_vL e).[k]) i
            - scat (pos P SL) (fun k => mul SL e k / sl P B SL e k) i * (vs v).[i]).
  { intros i. rewrite <- (scat_pos _ _ (fun j => (vs v).[j])). rewrite <- scat_scal.
    replace (scat (pos P SL) (fun k => m * (1 / sl P B SL e k)) i - scat (pos P SL) (fun k => (e_vL e).[k]) i - scat (pos P SL) (fun k => mul SL e k / sl P B SL e k * (vs v).[nth k (pos P SL) O]) i)
      with (scat (pos P SL) (fun k => 1 * (1 * (m * (1 / sl P B SL e k)) + (-1) * (e_vL e).[k]) + (-1) * (mul SL e k / sl P B SL e k * (vs v).[nth k (pos P SL) O])) i)
      by (rewrite !scat_lin; ring).
    apply scat_ext. intros k Hk. specialize (NvL k Hk). pose proof (slack_pos SL k Hk). unfold mul in *.
    apply (Rmult_eq_reg_l (sl P B SL e k)); [|lra]. replace (sl P B SL e k * (vvL v).[k]) with (m - sl P B SL e k * (e_vL e).[k] - (e_vL e).[k] * (vs v).[nth k (pos P SL) O]) by lra.
    field. lra. }
  assert (VU : forall i, scat (pos P SU) (fun k => (vvU v).[k]) i = m * scat (pos P SU) (fun k => 1 / sl P B SU e k) i - scat (pos P SU) (fun k => (e_vU e).[k]) i
            + scat (pos P SU) (fun k => mul SU e k / sl P B SU e k) i * (vs v).[i]).
  { intros i. rewrite <- (scat_pos _ _ (fun j => (vs v).[j])). rewrite <- scat_scal.
    replace (scat (pos P SU) (fun k => m * (1 / sl P B SU e k)) i - scat (pos P SU) (fun k => (e_vU e).[k]) i + scat (pos P SU) (fun k => mul SU e k / sl P B SU e k * (vs v).[nth k (pos P SU) O]) i)
      with (scat (pos P SU) (fun k => 1 * (1 * (m * (1 / sl P B SU e k)) + (-1) * (e_vU e).[k]) + 1 * (mul SU e k / sl P B SU e k * (vs v).[nth k (pos P SU) O])) i)
      by (rewrite !scat_lin; ring).
    apply scat_ext. intros k Hk. specialize (NvU k Hk). pose proof (slack_pos SU k Hk). unfold mul in *.
    apply (Rmult_eq_reg_l (sl P B SU e k)); [|lra]. replace (sl P B SU e k * (vvU v).[k]) with (m - sl P B SU e k * (e_vU e).[k] + (e_vU e).[k] * (vs v).[nth k (pos P SU) O]) by lra.
    field. lra. }
  set (Jc := fn_Jc P (e_x e)) in *. set (Jd := fn_Jd P (e_x e)) in *.
  assert (EX : forall i, (i < n_x P)%nat -> gbar_x P o B m e i =
     - (Jv W (vx v) i + (sigma_x P B e i + d_x d) * (vx v).[i]) - (JTv Jc (e_yc e) i + JTv Jc (vyc v) i) - (JTv Jd (e_yd e) i + JTv Jd (vyd v) i)).
  { intros i Hi. specialize (Nx i Hi). rewrite ZL, ZU in Nx. unfold glag_x, gbar_x, sigma_x in *. fold Jc Jd in Nx. lra. }
  assert (ES : forall i, (i < n_s P)%nat -> gbar_s P o B m e i = - ((sigma_s P B e i + d_s d) * (vs v).[i]) + ((e_yd e).[i] + (vyd v).[i])).
  { intros i Hi. specialize (Ns i Hi). rewrite VL, VU in Ns. unfold glag_s, gbar_s, sigma_s in *. lra. }
  destruct (ok_Jc _ HP (e_x e)) as [Jc1 Jc2]. destruct (ok_Jd _ HP (e_x e)) as [Jd1 Jd2]. fold Jc Jd in Jc1, Jc2, Jd1, Jd2.
  unfold gbtd, quad.
  rewrite (sumn_ext (n_x P) (fun i => gbar_x P o B m e i * (vx v).[i])
    (fun i => (-1) * ((Jv W (vx v) i + (sigma_x P B e i + d_x d) * (vx v).[i]) * (vx v).[i]) + (-1) *
       (1 * (1 * (JTv Jc (e_yc e) i * (vx v).[i]) + 1 * (JTv Jc (vyc v) i * (vx v).[i])) + 1 * (1 * (JTv Jd (e_yd e) i * (vx v).[i]) + 1 * (JTv Jd (vyd v) i * (vx v).[i])))))
    by (intros i Hi; rewrite EX by exact Hi; ring).
  rewrite (sumn_ext (n_s P) (fun i => gbar_s P o B m e i * (vs v).[i])
    (fun i => (-1) * ((sigma_s P B e i + d_s d) * (vs v).[i] * (vs v).[i]) + 1 * (1 * ((e_yd e).[i] * (vs v).[i]) + 1 * ((vyd v).[i] * (vs v).[i]))))
    by (intros i Hi; rewrite ES by exact Hi; ring).
  rewrite !sumn_lin. cbv beta.
  assert (AC : forall u, sumn (n_x P) (fun i => JTv Jc u i * (vx v).[i]) = 0).
  { intros u. rewrite <- Jc2, adjoint, Jc1. rewrite (sumn_ext _ _ (fun _ => 0)); [apply sumn_0|]. intros i Hi. specialize (Nc i Hi). rewrite Fc, Dc in Nc by exact Hi.
    replace (Jv Jc (vx v) i) with 0 by lra. ring. }
  assert (AD : forall u, sumn (n_x P) (fun i => JTv Jd u i * (vx v).[i]) = sumn (n_s P) (fun i => u.[i] * (vs v).[i])).
  { intros u. rewrite <- Jd2, adjoint, Jd1. apply sumn_ext. intros i Hi. specialize (Nd i Hi). rewrite Fd, Dd in Nd by exact Hi.
    replace (Jv Jd (vx v) i) with ((vs v).[i]) by lra. ring. }
  rewrite !AC, !AD. ring.
Qed.
End S.
