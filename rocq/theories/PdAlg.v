(** The linear algebra of PDFullSpaceSolver. *)
From Coq Require Import Reals List Arith Bool Lra Lia.
From Verif Require Import CQModel CQSpec CQVec PdModel PdSpec.
Import ListNotations.
Open Scope R_scope.
Local Notation "v .[ i ]" := (nth i v 0) (at level 1, format "v .[ i ]").
Ltac splits := repeat match goal with |- _ /\ _ => split end.

Lemma add_two_is a v1 b v2 c y n f g h : vec_is v1 n f -> vec_is v2 n g -> vec_is y n h ->
  vec_is (add_two a v1 b v2 c y) n (fun i => a * f i + b * g i + c * h i).
Proof.
  intros A B C. unfold add_two. apply mk_is'; [apply (vis_len _ _ _ C)|]. intros i Hi.
  rewrite (vis_el _ _ _ _ A Hi), (vis_el _ _ _ _ B Hi), (vis_el _ _ _ _ C Hi). reflexivity.
Qed.
Lemma add_one_is a v c y n f h : vec_is v n f -> vec_is y n h -> vec_is (add_one a v c y) n (fun i => a * f i + c * h i).
Proof.
  intros A C. unfold add_one. eapply vis_ext; [apply add_two_is; eassumption|]. intros i _. cbv beta. ring.
Qed.
Lemma axpy_is a x y n f g : vec_is x n f -> vec_is y n g -> vec_is (axpy a x y) n (fun i => g i + a * f i).
Proof. intros A B. unfold axpy. exact (vmap2_is (fun u v => u + a * v) y x n g f B A). Qed.
Lemma emul_is x y n f g : vec_is x n f -> vec_is y n g -> vec_is (emul x y) n (fun i => f i * g i).
Proof. intros A B. unfold emul. exact (vmap2_is Rmult x y n f g A B). Qed.
Lemma mtmul1_is J x y n m f g : vec_is x m f -> vec_is y n g -> mc J = n -> mr J = m ->
  vec_is (mtmul J 1 x 1 y) n (fun j => g j + sumn m (fun i => ment J i j * f i)).
Proof.
  intros Hx Hy <- <-. unfold mtmul. apply mk_is'; [reflexivity|]. intros i Hi. rewrite lsum_eq.
  rewrite (sumn_ext _ _ (fun j => ment J j i * f j)) by (intros j Hj; rewrite (vis_el _ _ _ _ Hx Hj); reflexivity).
  rewrite (vis_el _ _ _ _ Hy Hi). ring.
Qed.
Lemma scat_plus p f g i : scat p (fun k => f k + g k) i = scat p f i + scat p g i.
Proof. unfold scat. rewrite <- sumn_plus. apply sumn_ext. intros k _. destruct (Nat.eqb _ i); ring. Qed.
Lemma scat_lin p a f b g i : scat p (fun k => a * f k + b * g k) i = a * scat p f i + b * scat p g i.
Proof. rewrite scat_plus, !scat_scal. reflexivity. Qed.
Lemma scat_pos p f (x : nat -> R) i : scat p (fun k => f k * x (nth k p O)) i = scat p f i * x i.
Proof.
  unfold scat. rewrite Rmult_comm, <- sumn_scal. apply sumn_ext. intros k _. destruct (Nat.eqb_spec (nth k p O) i) as [->|]; ring.
Qed.
Lemma sumn_lin n a f b g : sumn n (fun i => a * f i + b * g i) = a * sumn n f + b * sumn n g.
Proof. rewrite sumn_plus, !sumn_scal. reflexivity. Qed.

Section Alg.
Variables (nx ns nc : nat) (Y : psys) (d : deltas).
Hypothesis K : sys_ok nx ns nc Y.
Notation iv_is := (iv_is nx ns nc Y).
Notation iv_ok := (iv_ok nx ns nc Y).
Notation newton := (newton Y d).

Let pxL i : In i (y_pxL Y) -> (i < nx)%nat. Proof. intros. apply (k_px _ _ _ _ K). auto. Qed.
Let pxU i : In i (y_pxU Y) -> (i < nx)%nat. Proof. intros. apply (k_px _ _ _ _ K). auto. Qed.
Let pdL i : In i (y_pdL Y) -> (i < ns)%nat. Proof. intros. apply (k_pd _ _ _ _ K). auto. Qed.
Let pdU i : In i (y_pdU Y) -> (i < ns)%nat. Proof. intros. apply (k_pd _ _ _ _ K). auto. Qed.

Lemma iv_is_ext v w w' : iv_is v w ->
  (forall i, (i < nx)%nat -> w_x w i = w_x w' i) -> (forall i, (i < ns)%nat -> w_s w i = w_s w' i) ->
  (forall i, (i < nc)%nat -> w_c w i = w_c w' i) -> (forall i, (i < ns)%nat -> w_d w i = w_d w' i) ->
  (forall i, (i < length (y_pxL Y))%nat -> w_zL w i = w_zL w' i) -> (forall i, (i < length (y_pxU Y))%nat -> w_zU w i = w_zU w' i) ->
  (forall i, (i < length (y_pdL Y))%nat -> w_vL w i = w_vL w' i) -> (forall i, (i < length (y_pdU Y))%nat -> w_vU w i = w_vU w' i) ->
  iv_is v w'.
Proof.
  intros (A1 & A2 & A3 & A4 & A5 & A6 & A7 & A8) E1 E2 E3 E4 E5 E6 E7 E8.
  unfold PdSpec.iv_is. splits; eapply vis_ext; eassumption.
Qed.
Lemma iv_is_ok v w : iv_is v w -> iv_ok v.
Proof.
  intros (A1 & A2 & A3 & A4 & A5 & A6 & A7 & A8). unfold PdSpec.iv_ok, PdSpec.iv_is, of_iv. cbn [w_x w_s w_c w_d w_zL w_zU w_vL w_vU].
  splits; apply vis_self; first [apply A1|apply A2|apply A3|apply A4|apply A5|apply A6|apply A7|apply A8].
Qed.

Lemma residuals_is rhs res : iv_ok rhs -> iv_ok res -> iv_is (residuals Y d rhs res) (lin2 1 (newton res) (-1) (of_iv rhs)).
Proof.
  intros (A1 & A2 & A3 & A4 & A5 & A6 & A7 & A8) (B1 & B2 & B3 & B4 & B5 & B6 & B7 & B8).
  destruct (k_W _ _ _ _ K) as [W1 W2]. destruct (k_Jc _ _ _ _ K) as [C1 C2]. destruct (k_Jd _ _ _ _ K) as [D1 D2].
  destruct (k_z _ _ _ _ K) as (Z1 & Z2 & Z3 & Z4). destruct (k_s _ _ _ _ K) as (S1 & S2 & S3 & S4).
  unfold residuals, PdSpec.iv_is, lin2, PdSpec.newton, of_iv in *. cbn [vx vs vyc vyd vzL vzU vvL vvU w_x w_s w_c w_d w_zL w_zU w_vL w_vU] in *.
  splits.
  - eapply vis_ext.
    + apply add_two_is; [exact B1|exact A1|]. apply pmul_is; [exact B6| |exact pxU]. apply pmul_is; [exact B5| |exact pxL].
      eapply mtmul1_is; [exact B4| |exact D2|exact D1]. eapply mtmul1_is; [exact B3| |exact C2|exact C1].
      eapply mmul_is; [exact B1|exact W2|exact W1].
    + intros i Hi. cbv beta. unfold Jv, JTv. rewrite W2, C1, D1. ring.
  - destruct (Req_EM_T (d_s d) 0) as [E|E].
    + eapply vis_ext.
      * apply add_two_is; [exact B4|exact A2|]. apply pmul_is; [exact B7| |exact pdL]. apply pmul_is; [exact B8|exact B2|exact pdU].
      * intros i Hi. cbv beta. rewrite E. ring.
    + eapply vis_ext.
      * apply axpy_is; [exact B2|]. apply add_two_is; [exact B4|exact A2|]. apply pmul_is; [exact B7| |exact pdL]. apply pmul_is; [exact B8|exact B2|exact pdU].
      * intros i Hi. cbv beta. ring.
  - eapply vis_ext.
    + apply add_two_is; [exact B3|exact A3|]. eapply mmul_is; [exact B1|exact C2|exact C1].
    + intros i Hi. cbv beta. unfold Jv. rewrite C2. ring.
  - destruct (Req_EM_T (d_d d) 0) as [E|E].
    + eapply vis_ext.
      * apply add_two_is; [exact B2|exact A4|]. eapply mmul_is; [exact B1|exact D2|exact D1].
      * intros i Hi. cbv beta. unfold Jv. rewrite D2, E. ring.
    + eapply vis_ext.
      * apply axpy_is; [exact B4|]. apply add_two_is; [exact B2|exact A4|]. eapply mmul_is; [exact B1|exact D2|exact D1].
      * intros i Hi. cbv beta. unfold Jv. rewrite D2. ring.
  - eapply vis_ext.
    + apply add_two_is; [|exact A5|].
      * apply emul_is; [|apply vis_self; exact Z1]. eapply (ptmul_is _ 1 _ 0 _ _ (fun _ => 0)); [exact B1|exact pxL|reflexivity|intros; ring].
      * apply emul_is; [exact B5|apply vis_self; exact S1].
    + intros i Hi. cbv beta. ring.
  - eapply vis_ext.
    + apply add_two_is; [|exact A6|].
      * apply emul_is; [|apply vis_self; exact Z2]. eapply (ptmul_is _ 1 _ 0 _ _ (fun _ => 0)); [exact B1|exact pxU|reflexivity|intros; ring].
      * apply emul_is; [exact B6|apply vis_self; exact S2].
    + intros i Hi. cbv beta. ring.
  - eapply vis_ext.
    + apply add_two_is; [|exact A7|].
      * apply emul_is; [|apply vis_self; exact Z3]. eapply (ptmul_is _ 1 _ 0 _ _ (fun _ => 0)); [exact B2|exact pdL|reflexivity|intros; ring].
      * apply emul_is; [exact B7|apply vis_self; exact S3].
    + intros i Hi. cbv beta. ring.
  - eapply vis_ext.
    + apply add_two_is; [|exact A8|].
      * apply emul_is; [|apply vis_self; exact Z4]. eapply (ptmul_is _ 1 _ 0 _ _ (fun _ => 0)); [exact B2|exact pdU|reflexivity|intros; ring].
      * apply emul_is; [exact B8|apply vis_self; exact S4].
    + intros i Hi. cbv beta. ring.
Qed.

(** the right hand side of the augmented system *)
Lemma aug_rhs_is rhs : iv_ok rhs ->
  vec_is (ax (aug_rhs Y rhs)) nx (fun i => (vx rhs).[i] + scat (y_pxL Y) (fun k => (vzL rhs).[k] / (y_sxL Y).[k]) i
     - scat (y_pxU Y) (fun k => (vzU rhs).[k] / (y_sxU Y).[k]) i) /\
  vec_is (as_ (aug_rhs Y rhs)) ns (fun i => (vs rhs).[i] + scat (y_pdL Y) (fun k => (vvL rhs).[k] / (y_ssL Y).[k]) i
     - scat (y_pdU Y) (fun k => (vvU rhs).[k] / (y_ssU Y).[k]) i) /\
  ac (aug_rhs Y rhs) = vyc rhs /\ ad (aug_rhs Y rhs) = vyd rhs.
Proof.
  intros (A1 & A2 & A3 & A4 & A5 & A6 & A7 & A8). destruct (k_s _ _ _ _ K) as (S1 & S2 & S3 & S4).
  unfold of_iv in *. cbn [w_x w_s w_c w_d w_zL w_zU w_vL w_vU] in *.
  unfold aug_rhs. cbn [ax as_ ac ad]. splits; try reflexivity.
  - eapply vis_ext.
    + eapply pmsinvz_is; [apply vis_self; exact S2|exact A6| |exact pxU]. eapply pmsinvz_is; [apply vis_self; exact S1|exact A5|exact A1|exact pxL].
    + intros i Hi. cbv beta. ring.
  - eapply vis_ext.
    + eapply pmsinvz_is; [apply vis_self; exact S4|exact A8| |exact pdU]. eapply pmsinvz_is; [apply vis_self; exact S3|exact A7|exact A2|exact pdL].
    + intros i Hi. cbv beta. ring.
Qed.

Lemma sinvblrm_is p al S R0 Z D n : length p = n -> vec_is (sinvblrm p al S R0 Z D) n (fun k => (R0.[k] + al * Z.[k] * D.[nth k p O]) / S.[k]).
Proof. intros <-. unfold sinvblrm, el. apply mk_is. Qed.

(** whatever the linear solver returns: the rows of the full system after the back substitution.
    The complementarity rows hold; the others are off by what the augmented system is off. *)
Lemma back_subst_is rhs a : iv_ok rhs -> av_ok nx ns nc a ->
  iv_ok (back_subst Y rhs a) /\
  (forall i, (i < nx)%nat -> w_x (newton (back_subst Y rhs a)) i = (vx rhs).[i] + (aug_x Y d a i - (ax (aug_rhs Y rhs)).[i])) /\
  (forall i, (i < ns)%nat -> w_s (newton (back_subst Y rhs a)) i = (vs rhs).[i] + (aug_s Y d a i - (as_ (aug_rhs Y rhs)).[i])) /\
  (forall i, (i < nc)%nat -> w_c (newton (back_subst Y rhs a)) i = (vyc rhs).[i] + (aug_c Y d a i - (ac (aug_rhs Y rhs)).[i])) /\
  (forall i, (i < ns)%nat -> w_d (newton (back_subst Y rhs a)) i = (vyd rhs).[i] + (aug_d Y d a i - (ad (aug_rhs Y rhs)).[i])) /\
  (forall i, (i < length (y_pxL Y))%nat -> w_zL (newton (back_subst Y rhs a)) i = (vzL rhs).[i]) /\
  (forall i, (i < length (y_pxU Y))%nat -> w_zU (newton (back_subst Y rhs a)) i = (vzU rhs).[i]) /\
  (forall i, (i < length (y_pdL Y))%nat -> w_vL (newton (back_subst Y rhs a)) i = (vvL rhs).[i]) /\
  (forall i, (i < length (y_pdU Y))%nat -> w_vU (newton (back_subst Y rhs a)) i = (vvU rhs).[i]).
Proof.
  intros Hr (L1 & L2 & L3 & L4).
  destruct (aug_rhs_is rhs Hr) as ([_ R1] & [_ R2] & R3 & R4).
  destruct (k_nz _ _ _ _ K) as (N1 & N2 & N3 & N4). destruct (k_sigx _ _ _ _ K) as [_ G1]. destruct (k_sigs _ _ _ _ K) as [_ G2].
  pose proof (sinvblrm_is (y_pxL Y) (-1) (y_sxL Y) (vzL rhs) (y_zL Y) (ax a) _ eq_refl) as [Q1 T1].
  pose proof (sinvblrm_is (y_pxU Y) 1 (y_sxU Y) (vzU rhs) (y_zU Y) (ax a) _ eq_refl) as [Q2 T2].
  pose proof (sinvblrm_is (y_pdL Y) (-1) (y_ssL Y) (vvL rhs) (y_vL Y) (as_ a) _ eq_refl) as [Q3 T3].
  pose proof (sinvblrm_is (y_pdU Y) 1 (y_ssU Y) (vvU rhs) (y_vU Y) (as_ a) _ eq_refl) as [Q4 T4].
  rewrite R3, R4.
  unfold PdSpec.iv_ok, PdSpec.iv_is, of_iv, PdSpec.newton, back_subst. cbn [vx vs vyc vyd vzL vzU vvL vvU w_x w_s w_c w_d w_zL w_zU w_vL w_vU].
  split; [splits; apply vis_self; assumption|].
  splits; intros i Hi.
  - rewrite R1, (scat_ext _ (fun k => (sinvblrm (y_pxL Y) (-1) (y_sxL Y) (vzL rhs) (y_zL Y) (ax a)).[k])
      (fun k => 1 * ((vzL rhs).[k] / (y_sxL Y).[k]) + (-1) * (((y_zL Y).[k] / (y_sxL Y).[k]) * (ax a).[nth k (y_pxL Y) O]))), scat_lin,
      (scat_pos _ _ (fun j => (ax a).[j])) by (try assumption; intros k Hk; rewrite T1 by exact Hk; field; apply N1; exact Hk).
    rewrite (scat_ext _ (fun k => (sinvblrm (y_pxU Y) 1 (y_sxU Y) (vzU rhs) (y_zU Y) (ax a)).[k])
      (fun k => 1 * ((vzU rhs).[k] / (y_sxU Y).[k]) + 1 * (((y_zU Y).[k] / (y_sxU Y).[k]) * (ax a).[nth k (y_pxU Y) O]))), scat_lin,
      (scat_pos _ _ (fun j => (ax a).[j])) by (try assumption; intros k Hk; rewrite T2 by exact Hk; field; apply N2; exact Hk).
    unfold aug_x. rewrite G1 by exact Hi. ring.
  - rewrite R2, (scat_ext _ (fun k => (sinvblrm (y_pdL Y) (-1) (y_ssL Y) (vvL rhs) (y_vL Y) (as_ a)).[k])
      (fun k => 1 * ((vvL rhs).[k] / (y_ssL Y).[k]) + (-1) * (((y_vL Y).[k] / (y_ssL Y).[k]) * (as_ a).[nth k (y_pdL Y) O]))), scat_lin,
      (scat_pos _ _ (fun j => (as_ a).[j])) by (try assumption; intros k Hk; rewrite T3 by exact Hk; field; apply N3; exact Hk).
    rewrite (scat_ext _ (fun k => (sinvblrm (y_pdU Y) 1 (y_ssU Y) (vvU rhs) (y_vU Y) (as_ a)).[k])
      (fun k => 1 * ((vvU rhs).[k] / (y_ssU Y).[k]) + 1 * (((y_vU Y).[k] / (y_ssU Y).[k]) * (as_ a).[nth k (y_pdU Y) O]))), scat_lin,
      (scat_pos _ _ (fun j => (as_ a).[j])) by (try assumption; intros k Hk; rewrite T4 by exact Hk; field; apply N4; exact Hk).
    unfold aug_s. rewrite G2 by exact Hi. ring.
  - unfold aug_c. ring.
  - unfold aug_d. ring.
  - rewrite T1 by exact Hi. field. apply N1. exact Hi.
  - rewrite T2 by exact Hi. field. apply N2. exact Hi.
  - rewrite T3 by exact Hi. field. apply N3. exact Hi.
  - rewrite T4 by exact Hi. field. apply N4. exact Hi.
Qed.

(** an exact solution of the augmented system gives an exact solution of the Newton system *)
Lemma back_subst_solves rhs a : iv_ok rhs -> solves_aug nx ns nc Y d (aug_rhs Y rhs) a -> solves nx ns nc Y d rhs (back_subst Y rhs a).
Proof.
  intros Hr (L & E1 & E2 & E3 & E4). destruct (back_subst_is rhs a Hr L) as (O1 & X & S & C & D & ZL & ZU & VL & VU).
  split; [exact O1|]. eapply iv_is_ext; [exact Hr|..]; intros i Hi; unfold of_iv; cbn [w_x w_s w_c w_d w_zL w_zU w_vL w_vU]; symmetry.
  - rewrite X, E1 by exact Hi. ring.
  - rewrite S, E2 by exact Hi. ring.
  - rewrite C, E3 by exact Hi. ring.
  - rewrite D, E4 by exact Hi. ring.
  - apply ZL, Hi.
  - apply ZU, Hi.
  - apply VL, Hi.
  - apply VU, Hi.
Qed.

(** and conversely *)
Lemma solves_back rhs v : iv_ok rhs -> solves nx ns nc Y d rhs v ->
  solves_aug nx ns nc Y d (aug_rhs Y rhs) (AV (vx v) (vs v) (vyc v) (vyd v)) /\
  forall k, ((k < length (y_pxL Y))%nat -> (vzL v).[k] = ((vzL rhs).[k] - (y_zL Y).[k] * (vx v).[nth k (y_pxL Y) O]) / (y_sxL Y).[k]) /\
            ((k < length (y_pxU Y))%nat -> (vzU v).[k] = ((vzU rhs).[k] + (y_zU Y).[k] * (vx v).[nth k (y_pxU Y) O]) / (y_sxU Y).[k]) /\
            ((k < length (y_pdL Y))%nat -> (vvL v).[k] = ((vvL rhs).[k] - (y_vL Y).[k] * (vs v).[nth k (y_pdL Y) O]) / (y_ssL Y).[k]) /\
            ((k < length (y_pdU Y))%nat -> (vvU v).[k] = ((vvU rhs).[k] + (y_vU Y).[k] * (vs v).[nth k (y_pdU Y) O]) / (y_ssU Y).[k]).
Proof.
  intros Hr (Hv & (_ & X) & (_ & S) & (_ & C) & (_ & D) & (_ & ZL) & (_ & ZU) & (_ & VL) & (_ & VU)).
  destruct (aug_rhs_is rhs Hr) as ([_ R1] & [_ R2] & R3 & R4).
  destruct (k_nz _ _ _ _ K) as (N1 & N2 & N3 & N4). destruct (k_sigx _ _ _ _ K) as [_ G1]. destruct (k_sigs _ _ _ _ K) as [_ G2].
  unfold PdSpec.newton in *. cbn [w_x w_s w_c w_d w_zL w_zU w_vL w_vU] in *.
  assert (FzL : forall k, (k < length (y_pxL Y))%nat -> (vzL v).[k] = ((vzL rhs).[k] - (y_zL Y).[k] * (vx v).[nth k (y_pxL Y) O]) / (y_sxL Y).[k])
    by (intros k Hk; rewrite ZL by exact Hk; field; apply N1, Hk).
  assert (FzU : forall k, (k < length (y_pxU Y))%nat -> (vzU v).[k] = ((vzU rhs).[k] + (y_zU Y).[k] * (vx v).[nth k (y_pxU Y) O]) / (y_sxU Y).[k])
    by (intros k Hk; rewrite ZU by exact Hk; field; apply N2, Hk).
  assert (FvL : forall k, (k < length (y_pdL Y))%nat -> (vvL v).[k] = ((vvL rhs).[k] - (y_vL Y).[k] * (vs v).[nth k (y_pdL Y) O]) / (y_ssL Y).[k])
    by (intros k Hk; rewrite VL by exact Hk; field; apply N3, Hk).
  assert (FvU : forall k, (k < length (y_pdU Y))%nat -> (vvU v).[k] = ((vvU rhs).[k] + (y_vU Y).[k] * (vs v).[nth k (y_pdU Y) O]) / (y_ssU Y).[k])
    by (intros k Hk; rewrite VU by exact Hk; field; apply N4, Hk).
  split; [|intros k; repeat split; auto].
  destruct Hv as ((V1 & _) & (V2 & _) & (V3 & _) & (V4 & _) & _).
  unfold solves_aug, av_ok. cbn [ax as_ ac ad]. rewrite R3, R4. split; [auto|].
  splits; intros i Hi.
  - rewrite R1, X by exact Hi. unfold aug_x. cbn [ax as_ ac ad]. rewrite G1 by exact Hi.
    rewrite (scat_ext _ (fun k => (vzL v).[k])
      (fun k => 1 * ((vzL rhs).[k] / (y_sxL Y).[k]) + (-1) * (((y_zL Y).[k] / (y_sxL Y).[k]) * (vx v).[nth k (y_pxL Y) O]))), scat_lin,
      (scat_pos _ _ (fun j => (vx v).[j])) by (intros k Hk; rewrite FzL by exact Hk; field; apply N1; exact Hk).
    rewrite (scat_ext _ (fun k => (vzU v).[k])
      (fun k => 1 * ((vzU rhs).[k] / (y_sxU Y).[k]) + 1 * (((y_zU Y).[k] / (y_sxU Y).[k]) * (vx v).[nth k (y_pxU Y) O]))), scat_lin,
      (scat_pos _ _ (fun j => (vx v).[j])) by (intros k Hk; rewrite FzU by exact Hk; field; apply N2; exact Hk).
    ring.
  - rewrite R2, S by exact Hi. unfold aug_s. cbn [ax as_ ac ad]. rewrite G2 by exact Hi.
    rewrite (scat_ext _ (fun k => (vvL v).[k])
      (fun k => 1 * ((vvL rhs).[k] / (y_ssL Y).[k]) + (-1) * (((y_vL Y).[k] / (y_ssL Y).[k]) * (vs v).[nth k (y_pdL Y) O]))), scat_lin,
      (scat_pos _ _ (fun j => (vs v).[j])) by (intros k Hk; rewrite FvL by exact Hk; field; apply N3; exact Hk).
    rewrite (scat_ext _ (fun k => (vvU v).[k])
      (fun k => 1 * ((vvU rhs).[k] / (y_ssU Y).[k]) + 1 * (((y_vU Y).[k] / (y_ssU Y).[k]) * (vs v).[nth k (y_pdU Y) O]))), scat_lin,
      (scat_pos _ _ (fun j => (vs v).[j])) by (intros k Hk; rewrite FvU by exact Hk; field; apply N4; exact Hk).
    ring.
  - rewrite C by exact Hi. reflexivity.
  - rewrite D by exact Hi. reflexivity.
Qed.

(** the Newton matrix is linear *)
Lemma Jv_lin J v1 v2 v a b n i : mc J = n -> vec_is v n (fun j => a * v1.[j] + b * v2.[j]) -> Jv J v i = a * Jv J v1 i + b * Jv J v2 i.
Proof.
  intros <- [_ E]. unfold Jv. rewrite <- sumn_lin. apply sumn_ext. intros j Hj. rewrite E by exact Hj. ring.
Qed.
Lemma JTv_lin J v1 v2 v a b n i : mr J = n -> vec_is v n (fun j => a * v1.[j] + b * v2.[j]) -> JTv J v i = a * JTv J v1 i + b * JTv J v2 i.
Proof.
  intros <- [_ E]. unfold JTv. rewrite <- sumn_lin. apply sumn_ext. intros j Hj. rewrite E by exact Hj. ring.
Qed.
Lemma newton_lin v1 v2 v a b rhs : iv_is v (lin2 a (of_iv v1) b (of_iv v2)) ->
  iv_is rhs (lin2 a (newton v1) b (newton v2)) <-> iv_is rhs (newton v).
Proof.
  intros (A1 & A2 & A3 & A4 & A5 & A6 & A7 & A8).
  destruct (k_W _ _ _ _ K) as [W1 W2]. destruct (k_Jc _ _ _ _ K) as [C1 C2]. destruct (k_Jd _ _ _ _ K) as [D1 D2].
  unfold lin2, of_iv in *. cbn [w_x w_s w_c w_d w_zL w_zU w_vL w_vU] in *.
  assert (EL : forall i, scat (y_pxL Y) (fun k => (vzL v).[k]) i = a * scat (y_pxL Y) (fun k => (vzL v1).[k]) i + b * scat (y_pxL Y) (fun k => (vzL v2).[k]) i)
    by (intros i; rewrite <- scat_lin; apply scat_ext; intros k Hk; apply (proj2 A5); exact Hk).
  assert (EU : forall i, scat (y_pxU Y) (fun k => (vzU v).[k]) i = a * scat (y_pxU Y) (fun k => (vzU v1).[k]) i + b * scat (y_pxU Y) (fun k => (vzU v2).[k]) i)
    by (intros i; rewrite <- scat_lin; apply scat_ext; intros k Hk; apply (proj2 A6); exact Hk).
  assert (FL : forall i, scat (y_pdL Y) (fun k => (vvL v).[k]) i = a * scat (y_pdL Y) (fun k => (vvL v1).[k]) i + b * scat (y_pdL Y) (fun k => (vvL v2).[k]) i)
    by (intros i; rewrite <- scat_lin; apply scat_ext; intros k Hk; apply (proj2 A7); exact Hk).
  assert (FU : forall i, scat (y_pdU Y) (fun k => (vvU v).[k]) i = a * scat (y_pdU Y) (fun k => (vvU v1).[k]) i + b * scat (y_pdU Y) (fun k => (vvU v2).[k]) i)
    by (intros i; rewrite <- scat_lin; apply scat_ext; intros k Hk; apply (proj2 A8); exact Hk).
  assert (G : (forall i, (i < nx)%nat -> a * w_x (newton v1) i + b * w_x (newton v2) i = w_x (newton v) i) /\
              (forall i, (i < ns)%nat -> a * w_s (newton v1) i + b * w_s (newton v2) i = w_s (newton v) i) /\
              (forall i, (i < nc)%nat -> a * w_c (newton v1) i + b * w_c (newton v2) i = w_c (newton v) i) /\
              (forall i, (i < ns)%nat -> a * w_d (newton v1) i + b * w_d (newton v2) i = w_d (newton v) i) /\
              (forall i, (i < length (y_pxL Y))%nat -> a * w_zL (newton v1) i + b * w_zL (newton v2) i = w_zL (newton v) i) /\
              (forall i, (i < length (y_pxU Y))%nat -> a * w_zU (newton v1) i + b * w_zU (newton v2) i = w_zU (newton v) i) /\
              (forall i, (i < length (y_pdL Y))%nat -> a * w_vL (newton v1) i + b * w_vL (newton v2) i = w_vL (newton v) i) /\
              (forall i, (i < length (y_pdU Y))%nat -> a * w_vU (newton v1) i + b * w_vU (newton v2) i = w_vU (newton v) i)).
  { unfold PdSpec.newton. cbn [w_x w_s w_c w_d w_zL w_zU w_vL w_vU].
    splits; intros i Hi.
    - rewrite EL, EU, (Jv_lin _ _ _ _ _ _ _ i W2 A1), (JTv_lin _ _ _ _ _ _ _ i C1 A3), (JTv_lin _ _ _ _ _ _ _ i D1 A4), (proj2 A1) by exact Hi. ring.
    - rewrite FL, FU, (proj2 A2), (proj2 A4) by exact Hi. ring.
    - rewrite (Jv_lin _ _ _ _ _ _ _ i C2 A1), (proj2 A3) by exact Hi. ring.
    - rewrite (Jv_lin _ _ _ _ _ _ _ i D2 A1), (proj2 A2), (proj2 A4) by exact Hi. ring.
    - rewrite (proj2 A5), (proj2 A1) by (try exact Hi; apply pxL, nth_In; exact Hi). ring.
    - rewrite (proj2 A6), (proj2 A1) by (try exact Hi; apply pxU, nth_In; exact Hi). ring.
    - rewrite (proj2 A7), (proj2 A2) by (try exact Hi; apply pdL, nth_In; exact Hi). ring.
    - rewrite (proj2 A8), (proj2 A2) by (try exact Hi; apply pdU, nth_In; exact Hi). ring. }
  destruct G as (G1 & G2 & G3 & G4 & G5 & G6 & G7 & G8).
  split; intros E; eapply iv_is_ext; try exact E; cbn [w_x w_s w_c w_d w_zL w_zU w_vL w_vU]; intros i Hi; first [solve [auto]|symmetry; solve [auto]].
Qed.

Lemma ivmap2_is (f : vec -> vec -> vec) v1 v2 a b :
  (forall u1 u2 n, length u1 = n -> length u2 = n -> vec_is (f u1 u2) n (fun i => a * u1.[i] + b * u2.[i])) ->
  iv_ok v1 -> iv_ok v2 -> iv_is (ivmap2 f v1 v2) (lin2 a (of_iv v1) b (of_iv v2)).
Proof.
  intros Hf ((A1 & _) & (A2 & _) & (A3 & _) & (A4 & _) & (A5 & _) & (A6 & _) & (A7 & _) & (A8 & _))
            ((B1 & _) & (B2 & _) & (B3 & _) & (B4 & _) & (B5 & _) & (B6 & _) & (B7 & _) & (B8 & _)).
  unfold PdSpec.iv_is, ivmap2, lin2, of_iv. cbn [vx vs vyc vyd vzL vzU vvL vvU w_x w_s w_c w_d w_zL w_zU w_vL w_vU].
  splits; apply Hf; assumption.
Qed.
Lemma iv_add_one a b v1 v2 : iv_ok v1 -> iv_ok v2 -> iv_is (ivmap2 (fun v y => add_one a v b y) v1 v2) (lin2 a (of_iv v1) b (of_iv v2)).
Proof. apply ivmap2_is. intros u1 u2 n H1 H2. apply (add_one_is a u1 b u2 n); apply vis_self; assumption. Qed.
Lemma iv_axpy b v1 v2 : iv_ok v1 -> iv_ok v2 -> iv_is (ivmap2 (fun y x => axpy b x y) v1 v2) (lin2 1 (of_iv v1) b (of_iv v2)).
Proof.
  apply ivmap2_is. intros u1 u2 n H1 H2. eapply vis_ext; [apply (axpy_is b u2 u1 n); apply vis_self; assumption|]. intros i _. cbv beta. ring.
Qed.
Lemma iv_scal a v : iv_ok v -> iv_is (ivmap (vmap (Rmult a)) v) (lin2 a (of_iv v) 0 (of_iv v)).
Proof.
  intros Hv. unfold ivmap. apply (ivmap2_is (fun u _ => vmap (Rmult a) u)); [|exact Hv|exact Hv]. intros u1 u2 n H1 H2.
  eapply vis_ext; [apply vmap_is, vis_self; exact H1|]. intros i _. cbv beta. ring.
Qed.

(** a zero residual *)
Lemma resid_zero rhs v : iv_ok rhs -> iv_ok v ->
  (solves nx ns nc Y d rhs v <-> iv_is (residuals Y d rhs v) (Rows (fun _ => 0) (fun _ => 0) (fun _ => 0) (fun _ => 0) (fun _ => 0) (fun _ => 0) (fun _ => 0) (fun _ => 0))).
Proof.
  intros Hr Hv. pose proof (residuals_is rhs v Hr Hv) as E. split.
  - intros [_ S]. destruct S as ((_&S1)&(_&S2)&(_&S3)&(_&S4)&(_&S5)&(_&S6)&(_&S7)&(_&S8)).
    eapply iv_is_ext; [exact E|..]; intros i Hi; unfold lin2, of_iv; cbn [w_x w_s w_c w_d w_zL w_zU w_vL w_vU];
      rewrite ?S1, ?S2, ?S3, ?S4, ?S5, ?S6, ?S7, ?S8 by exact Hi; ring.
  - intros Z. split; [exact Hv|].
    destruct E as ((_&E1)&(_&E2)&(_&E3)&(_&E4)&(_&E5)&(_&E6)&(_&E7)&(_&E8)).
    destruct Z as ((_&Z1)&(_&Z2)&(_&Z3)&(_&Z4)&(_&Z5)&(_&Z6)&(_&Z7)&(_&Z8)).
    unfold lin2, of_iv in *. cbn [w_x w_s w_c w_d w_zL w_zU w_vL w_vU] in *.
    eapply iv_is_ext; [exact Hr|..]; intros i Hi; unfold of_iv; cbn [w_x w_s w_c w_d w_zL w_zU w_vL w_vU].
    + specialize (E1 i Hi). rewrite Z1 in E1 by exact Hi. lra.
    + specialize (E2 i Hi). rewrite Z2 in E2 by exact Hi. lra.
    + specialize (E3 i Hi). rewrite Z3 in E3 by exact Hi. lra.
    + specialize (E4 i Hi). rewrite Z4 in E4 by exact Hi. lra.
    + specialize (E5 i Hi). rewrite Z5 in E5 by exact Hi. lra.
    + specialize (E6 i Hi). rewrite Z6 in E6 by exact Hi. lra.
    + specialize (E7 i Hi). rewrite Z7 in E7 by exact Hi. lra.
    + specialize (E8 i Hi). rewrite Z8 in E8 by exact Hi. lra.
Qed.
End Alg.
