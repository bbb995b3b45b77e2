(** From the linear systems of the oracles to Newton steps, and from Newton steps to the errors at the new point. *)
From Coq Require Import Reals List Arith Bool Lra Lia.
From Verif Require Import CQModel CQSpec CQVec CQFuns PdModel PdSpec PdAlg PdProofs PdLoop PdSearch QfModel QfSpec QfProofs QfProofs2.
From Verif Require AmuModel.
Import ListNotations.
Open Scope R_scope.
Local Notation "v .[ i ]" := (nth i v 0) (at level 1, format "v .[ i ]").

Section N.
Variables (P : nlp) (o : opts) (B : bd -> vec) (m tau : R) (e : env) (i : oin) (m1 : R) (W : mat) (Y : psys) (q : cqv) (d : deltas).
Hypotheses (HP : nlp_ok P) (Ho : opts_ok o) (HD : dims_ok P e) (HI : interior P o B e) (T : at_point P o B m1 e W Y q)
  (HA : asked_at P o B m tau e i) (Hmu : dep_mu P = false).
Notation iv_is := (iv_is (n_x P) (n_s P) (n_c P) Y).
Notation iv_ok := (iv_ok (n_x P) (n_s P) (n_c P) Y).
Notation solves := (solves (n_x P) (n_s P) (n_c P) Y d).
Let K : sys_ok (n_x P) (n_s P) (n_c P) Y := at_point_sys P o B m1 e W Y q HP Ho HD HI T.
Lemma ylen : length (y_pxL Y) = nb P XL /\ length (y_pxU Y) = nb P XU /\ length (y_pdL Y) = nb P SL /\ length (y_pdU Y) = nb P SU.
Proof. pose proof T as T'. destruct T' as [_ _ _ _ (p1 & p2 & p3 & p4) _ _ _ _ _ _ _ _]. rewrite p1, p2, p3, p4. auto. Qed.
Lemma iv_dims_ok v : iv_dims P v <-> iv_ok v.
Proof.
  destruct ylen as (L1 & L2 & L3 & L4). unfold iv_dims, PdSpec.iv_ok, PdSpec.iv_is, of_iv. cbn [w_x w_s w_c w_d w_zL w_zU w_vL w_vU]. rewrite L1, L2, L3, L4.
  split; [intros (? & ? & ? & ? & ? & ? & ? & ?); splits; apply vis_self; assumption|].
  intros ((? & _) & (? & _) & (? & _) & (? & _) & (? & _) & (? & _) & (? & _) & (? & _)). splits; assumption.
Qed.

Definition rows_iv (w : rows) : iv :=
  IV (mk (n_x P) (w_x w)) (mk (n_s P) (w_s w)) (mk (n_c P) (w_c w)) (mk (n_s P) (w_d w))
     (mk (length (y_pxL Y)) (w_zL w)) (mk (length (y_pxU Y)) (w_zU w)) (mk (length (y_pdL Y)) (w_vL w)) (mk (length (y_pdU Y)) (w_vU w)).
Lemma rows_iv_is w : iv_is (rows_iv w) w.
Proof. unfold rows_iv, PdSpec.iv_is. cbn [vx vs vyc vyd vzL vzU vvL vvU]. splits; apply mk_is. Qed.
Definition rows_eq (a b : rows) : Prop :=
  (forall j, (j < n_x P)%nat -> w_x a j = w_x b j) /\ (forall j, (j < n_s P)%nat -> w_s a j = w_s b j) /\
  (forall j, (j < n_c P)%nat -> w_c a j = w_c b j) /\ (forall j, (j < n_s P)%nat -> w_d a j = w_d b j) /\
  (forall k, (k < length (y_pxL Y))%nat -> w_zL a k = w_zL b k) /\ (forall k, (k < length (y_pxU Y))%nat -> w_zU a k = w_zU b k) /\
  (forall k, (k < length (y_pdL Y))%nat -> w_vL a k = w_vL b k) /\ (forall k, (k < length (y_pdU Y))%nat -> w_vU a k = w_vU b k).
Lemma iv_is_eq v a b : iv_is v a -> iv_is v b -> rows_eq a b.
Proof.
  intros ((_&A1)&(_&A2)&(_&A3)&(_&A4)&(_&A5)&(_&A6)&(_&A7)&(_&A8)) ((_&B1)&(_&B2)&(_&B3)&(_&B4)&(_&B5)&(_&B6)&(_&B7)&(_&B8)).
  unfold rows_eq. splits; intros j Hj; [rewrite <- A1, <- B1|rewrite <- A2, <- B2|rewrite <- A3, <- B3|rewrite <- A4, <- B4|rewrite <- A5, <- B5|rewrite <- A6, <- B6|rewrite <- A7, <- B7|rewrite <- A8, <- B8]; auto.
Qed.
Lemma newton_comb v v1 v2 a b r1 r2 : iv_is v (lin2 a (of_iv v1) b (of_iv v2)) -> iv_is r1 (newton Y d v1) -> iv_is r2 (newton Y d v2) ->
  rows_eq (newton Y d v) (lin2 a (of_iv r1) b (of_iv r2)).
Proof.
  intros L S1 S2. apply (iv_is_eq (rows_iv (lin2 a (newton Y d v1) b (newton Y d v2)))).
  - apply (newton_lin _ _ _ _ d K v1 v2 v a b). + exact L. + apply rows_iv_is.
  - eapply iv_is_ext; [apply rows_iv_is|..]; destruct S1 as ((_&A1)&(_&A2)&(_&A3)&(_&A4)&(_&A5)&(_&A6)&(_&A7)&(_&A8)), S2 as ((_&B1)&(_&B2)&(_&B3)&(_&B4)&(_&B5)&(_&B6)&(_&B7)&(_&B8));
      intros j Hj; unfold lin2, of_iv; cbn [w_x w_s w_c w_d w_zL w_zU w_vL w_vU]; [rewrite A1, B1|rewrite A2, B2|rewrite A3, B3|rewrite A4, B4|rewrite A5, B5|rewrite A6, B6|rewrite A7, B7|rewrite A8, B8]; auto.
Qed.

Definition target (m' : R) : rows := Rows
  (fun j => - (glag_x P m e j + m' * dampg_x P o j)) (fun j => - (glag_s P e j + m' * dampg_s P o j))
  (fun j => - (fn_c P (e_x e)).[j]) (fun j => - ((fn_d P (e_x e)).[j] - (e_s e).[j]))
  (fun k => m' - sl P B XL e k * mul XL e k) (fun k => m' - sl P B XU e k * mul XU e k)
  (fun k => m' - sl P B SL e k * mul SL e k) (fun k => m' - sl P B SU e k * mul SU e k).
Lemma glag_free m2 j : glag_x P m2 e j = glag_x P m e j.
Proof. unfold glag_x, gobj. rewrite Hmu. reflexivity. Qed.
Lemma step_of_rows m' v : iv_dims P v -> rows_eq (newton Y d v) (target m') -> newton_step P o B m' e W d (fun _ _ => 0) v.
Proof.
  intros Hv (R1 & R2 & R3 & R4 & R5 & R6 & R7 & R8).
  pose proof T as T'. destruct T' as [tW tWd tJc tJd (p1 & p2 & p3 & p4) (z1 & z2 & z3 & z4) (s1 & s2 & s3 & s4) _ _ _ _ _ _].
  unfold newton, target in *. cbn [w_x w_s w_c w_d w_zL w_zU w_vL w_vU] in *.
  rewrite p1, p2, p3, p4, ?z1, ?z2, ?z3, ?z4, ?tW, ?tJc, ?tJd in *. unfold nb in *.
  unfold newton_step. splits; try apply Hv; intros j Hj.
  - rewrite glag_free. specialize (R1 j Hj). lra.
  - specialize (R2 j Hj). lra.
  - specialize (R3 j Hj). lra.
  - specialize (R4 j Hj). lra.
  - specialize (R5 j Hj). rewrite (proj2 s1) in R5 by exact Hj. unfold mul in *. lra.
  - specialize (R6 j Hj). rewrite (proj2 s2) in R6 by exact Hj. unfold mul in *. lra.
  - specialize (R7 j Hj). rewrite (proj2 s3) in R7 by exact Hj. unfold mul in *. lra.
  - specialize (R8 j Hj). rewrite (proj2 s4) in R8 by exact Hj. unfold mul in *. lra.
Qed.
Lemma rhs_aff_is : iv_is (rhs_aff i) (Rows (glag_x P m e) (glag_s P e) (fun j => (fn_c P (e_x e)).[j]) (fun j => (fn_d P (e_x e)).[j] - (e_s e).[j])
  (fun k => sl P B XL e k * mul XL e k) (fun k => sl P B XU e k * mul XU e k) (fun k => sl P B SL e k * mul SL e k) (fun k => sl P B SU e k * mul SU e k)).
Proof.
  destruct ylen as (L1 & L2 & L3 & L4). unfold rhs_aff, PdSpec.iv_is. cbn [vx vs vyc vyd vzL vzU vvL vvU w_x w_s w_c w_d w_zL w_zU w_vL w_vU].
  rewrite L1, L2, L3, L4. splits; apply HA.
Qed.
Lemma rhs_cen_is : iv_is (rhs_cen i) (Rows (fun j => - avrg P B e * dampg_x P o j) (fun j => - avrg P B e * dampg_s P o j) (fun _ => 0) (fun _ => 0)
  (fun _ => avrg P B e) (fun _ => avrg P B e) (fun _ => avrg P B e) (fun _ => avrg P B e)).
Proof.
  destruct ylen as (L1 & L2 & L3 & L4). unfold rhs_cen, PdSpec.iv_is. cbn [vx vs vyc vyd vzL vzU vvL vvU w_x w_s w_c w_d w_zL w_zU w_vL w_vU].
  rewrite L1, L2, L3, L4, (a_avrg _ _ _ _ _ _ _ HA), (vis_len _ _ _ (a_c _ _ _ _ _ _ _ HA)), (vis_len _ _ _ (a_dms _ _ _ _ _ _ _ HA)),
    !(vis_len _ _ _ (a_mul _ _ _ _ _ _ _ HA _)).
  splits; try apply vset_is.
  - eapply vis_ext; [apply add_one_is; apply (a_kx _ _ _ _ _ _ _ HA)|]. intros j _. cbv beta. ring.
  - eapply vis_ext; [apply add_one_is; apply (a_ks _ _ _ _ _ _ _ HA)|]. intros j _. cbv beta. ring.
Qed.

Lemma sol_rows sv n al rhs v : solver_ok P Y d sv -> iv_ok rhs -> sv n al rhs = Some v ->
  iv_ok v /\ exists w, iv_is rhs (newton Y d w) /\ iv_is v (lin2 al (of_iv w) 0 (of_iv w)).
Proof.
  intros HS Hr E. destruct (HS n al rhs v Hr E) as (w & [S1 S2] & L). split; [eapply iv_is_ok; exact L|]. exists w. split; assumption.
Qed.
Lemma of_iv_rows v a : iv_is v a -> rows_eq (of_iv v) a.
Proof. intros H. apply (iv_is_eq v); [apply (iv_is_ok _ _ _ _ _ _ H)|exact H]. Qed.
Lemma rows_trans a b c : rows_eq a b -> rows_eq b c -> rows_eq a c.
Proof.
  intros (A1&A2&A3&A4&A5&A6&A7&A8) (B1&B2&B3&B4&B5&B6&B7&B8). unfold rows_eq. splits; intros j Hj;
    [rewrite A1, B1|rewrite A2, B2|rewrite A3, B3|rewrite A4, B4|rewrite A5, B5|rewrite A6, B6|rewrite A7, B7|rewrite A8, B8]; auto.
Qed.
(** a step with matrix times it = sigma * (centring right hand side) - (affine right hand side) *)
Lemma target_rows sg (ra rc : rows) : rows_eq ra (Rows (glag_x P m e) (glag_s P e) (fun j => (fn_c P (e_x e)).[j]) (fun j => (fn_d P (e_x e)).[j] - (e_s e).[j])
  (fun k => sl P B XL e k * mul XL e k) (fun k => sl P B XU e k * mul XU e k) (fun k => sl P B SL e k * mul SL e k) (fun k => sl P B SU e k * mul SU e k)) ->
  rows_eq rc (Rows (fun j => - avrg P B e * dampg_x P o j) (fun j => - avrg P B e * dampg_s P o j) (fun _ => 0) (fun _ => 0)
  (fun _ => avrg P B e) (fun _ => avrg P B e) (fun _ => avrg P B e) (fun _ => avrg P B e)) ->
  rows_eq (lin2 sg rc (-1) ra) (target (sg * avrg P B e)).
Proof.
  intros (A1&A2&A3&A4&A5&A6&A7&A8) (B1&B2&B3&B4&B5&B6&B7&B8). unfold rows_eq, lin2, target. cbn [w_x w_s w_c w_d w_zL w_zU w_vL w_vU] in *.
  splits; intros j Hj; [rewrite A1, B1|rewrite A2, B2|rewrite A3, B3|rewrite A4, B4|rewrite A5, B5|rewrite A6, B6|rewrite A7, B7|rewrite A8, B8]; auto; ring.
Qed.
Lemma aff_step0 w aff : solves (rhs_aff i) w -> iv_is aff (lin2 (-1) (of_iv w) 0 (of_iv w)) -> newton_step P o B 0 e W d (fun _ _ => 0) aff.
Proof.
  intros [_ S] L. apply step_of_rows; [apply iv_dims_ok; eapply iv_is_ok; exact L|].
  eapply rows_trans; [apply (newton_comb aff w w (-1) 0 _ _ L S S)|].
  destruct (of_iv_rows _ _ rhs_aff_is) as (A1&A2&A3&A4&A5&A6&A7&A8). unfold rows_eq, lin2, target. cbn [w_x w_s w_c w_d w_zL w_zU w_vL w_vU] in *.
  splits; intros j Hj; [rewrite A1|rewrite A2|rewrite A3|rewrite A4|rewrite A5|rewrite A6|rewrite A7|rewrite A8]; auto; ring.
Qed.
Lemma aff_step sv aff : solver_ok P Y d sv -> sv 0%nat (-1) (rhs_aff i) = Some aff -> newton_step P o B 0 e W d (fun _ _ => 0) aff.
Proof.
  intros HS E. destruct (HS _ _ _ _ (iv_is_ok _ _ _ _ _ _ rhs_aff_is) E) as (w & S & L). exact (aff_step0 w aff S L).
Qed.
Lemma comb_step sv aff cen sg : solver_ok P Y d sv -> sv 0%nat (-1) (rhs_aff i) = Some aff -> sv 1%nat 1 (rhs_cen i) = Some cen ->
  iv_dims P cen /\ newton_step P o B (sg * avrg P B e) e W d (fun _ _ => 0) (combine sg aff cen).
Proof.
  intros HS E1 E2. destruct (sol_rows sv _ _ _ _ HS (iv_is_ok _ _ _ _ _ _ rhs_aff_is) E1) as (Ok1 & wa & S1 & L1).
  destruct (sol_rows sv _ _ _ _ HS (iv_is_ok _ _ _ _ _ _ rhs_cen_is) E2) as (Ok2 & wc & S2 & L2).
  pose proof (proj2 (iv_dims_ok aff) Ok1) as Da. pose proof (proj2 (iv_dims_ok cen) Ok2) as Dc. split; [exact Dc|].
  apply step_of_rows; [apply cmb_dims; assumption|].
  assert (L : iv_is (combine sg aff cen) (lin2 sg (of_iv wc) (-1) (of_iv wa))).
  { destruct (cmb_is P aff cen sg Da Dc) as (C1 & C2 & C3 & C4 & C5). destruct ylen as (N1 & N2 & N3 & N4).
    destruct (of_iv_rows _ _ L1) as (A1&A2&A3&A4&A5&A6&A7&A8). destruct (of_iv_rows _ _ L2) as (B1&B2&B3&B4&B5&B6&B7&B8).
    unfold lin2, of_iv, PdSpec.iv_is in *. cbn [w_x w_s w_c w_d w_zL w_zU w_vL w_vU] in *. rewrite N1, N2, N3, N4 in *.
    splits; (eapply vis_ext; [first [exact C1|exact C2|exact C3|exact C4|exact (C5 XL)|exact (C5 XU)|exact (C5 SL)|exact (C5 SU)]|]); intros j Hj; cbv beta; cbn [dz].
    - rewrite A1, B1 by exact Hj. ring. - rewrite A2, B2 by exact Hj. ring. - rewrite A3, B3 by exact Hj. ring. - rewrite A4, B4 by exact Hj. ring.
    - rewrite A5, B5 by exact Hj. ring. - rewrite A6, B6 by exact Hj. ring. - rewrite A7, B7 by exact Hj. ring. - rewrite A8, B8 by exact Hj. ring. }
  eapply rows_trans; [apply (newton_comb _ _ _ _ _ _ _ L S2 S1)|]. apply target_rows; apply of_iv_rows; [apply rhs_aff_is|apply rhs_cen_is].
Qed.
End N.

(** * the infeasibilities after a step *)
Section Lin.
Variables (P : nlp) (o : opts) (B : bd -> vec) (e : env) (W : mat) (m m' : R) (v : iv).
Hypotheses (HP : nlp_ok P) (HD : dims_ok P e) (Hmu : dep_mu P = false) (Hk : kappa_d o = 0)
  (HN : newton_step P o B m' e W (Dl 0 0 0 0) (fun _ _ => 0) v).
Lemma lin_dual_scaled ad : Forall2 (fun f g : fam => fst f = fst g /\ forall j, (j < fst f)%nat -> snd g j = (1 - ad) * snd f j) (dual_fams P m e) (lin_dual P W m ad e v).
Proof.
  destruct HN as (_ & N1 & N2 & _). unfold dual_fams, lin_dual. repeat constructor; cbn [fst snd]; intros j Hj.
  - specialize (N1 j Hj). cbn [d_x] in N1. unfold dampg_x in N1. rewrite Hk in N1. rewrite (glag_free P m' e Hmu m) in *. set (g := glag_x P m' e j) in *.
    match goal with |- context [ad * ?t] => assert (E : t = - g) by lra; rewrite E end. ring.
  - specialize (N2 j Hj). cbn [d_s] in N2. unfold dampg_s in N2. rewrite Hk in N2. set (g := glag_s P e j) in *.
    match goal with |- context [ad * ?t] => assert (E : t = - g) by lra; rewrite E end. ring.
Qed.
Lemma lin_primal_scaled ap : Forall2 (fun f g : fam => fst f = fst g /\ forall j, (j < fst f)%nat -> snd g j = (1 - ap) * snd f j) (primal_fams P e) (lin_primal P ap e v).
Proof.
  destruct HN as (_ & _ & _ & N3 & N4 & _). unfold primal_fams, lin_primal. repeat constructor; cbn [fst snd]; intros j Hj.
  - specialize (N3 j Hj). cbn [d_c] in N3. set (g := (fn_c P (e_x e)).[j]) in *.
    match goal with |- context [ap * ?t] => assert (E : t = - g) by lra; rewrite E end. ring.
  - specialize (N4 j Hj). cbn [d_d] in N4. set (g := (fn_d P (e_x e)).[j] - (e_s e).[j]) in *.
    match goal with |- context [ap * ?t] => assert (E : t = - g) by lra; rewrite E end. ring.
Qed.
Lemma moved_dual ap ad : affine_nlp P -> iv_dims P v -> (forall a b, ment W a b = 0) ->
  Forall2 (fun f g : fam => fst f = fst g /\ forall j, (j < fst f)%nat -> snd f j = snd g j) (lin_dual P W m ad e v) (dual_fams P m (moved ap ad e v)).
Proof.
  intros (_ & Gg & GJc & GJd & _ & _) Hv W0. destruct HD as (D1 & D2 & D3 & D4 & D5 & D6 & D7 & D8). destruct Hv as (V1 & V2 & V3 & V4 & V5 & V6 & V7 & V8).
  pose proof (ok_Jc _ HP (e_x e)) as [Jc1 _]. pose proof (ok_Jd _ HP (e_x e)) as [Jd1 _].
  assert (PL : forall x t d n, length x = n -> vec_is (plus x t d) n (fun j => 1 * x.[j] + t * d.[j])).
  { intros x t d n <-. unfold plus. eapply mk_is'; [reflexivity|]. intros j _. ring. }
  assert (SC : forall b x t d j, length x = nb P b -> scat (pos P b) (fun k => (plus x t d).[k]) j = scat (pos P b) (fun k => x.[k]) j + t * scat (pos P b) (fun k => d.[k]) j).
  { intros b x t d j L. rewrite <- scat_scal, <- scat_plus. apply scat_ext. intros k Hk'. apply plus_el. unfold nb in L. lia. }
  unfold lin_dual, dual_fams. repeat constructor; cbn [fst snd]; intros j Hj.
  - unfold glag_x, gobj. rewrite Hmu. unfold moved. cbn [e_x e_yc e_yd e_zL e_zU].
    rewrite (Gg (plus _ _ _) (e_x e)), (GJc (plus _ _ _) (e_x e)), (GJd (plus _ _ _) (e_x e)).
    rewrite (SC XL), (SC XU) by assumption.
    rewrite (JTv_lin (fn_Jc P (e_x e)) (e_yc e) (vyc v) (plus (e_yc e) ad (vyc v)) 1 ad (n_c P) j Jc1 (PL _ _ _ _ D3)).
    rewrite (JTv_lin (fn_Jd P (e_x e)) (e_yd e) (vyd v) (plus (e_yd e) ad (vyd v)) 1 ad (n_s P) j Jd1 (PL _ _ _ _ D4)).
    assert (J0 : Jv W (vx v) j = 0). { unfold Jv. rewrite (sumn_ext _ _ (fun _ => 0)); [apply sumn_0|]. intros a _. rewrite W0. ring. }
    rewrite J0. ring.
  - unfold glag_s, moved. cbn [e_yd e_vL e_vU]. rewrite (SC SL), (SC SU) by assumption. rewrite plus_el by lia. ring.
Qed.
Lemma moved_primal ap ad : affine_nlp P -> iv_dims P v ->
  Forall2 (fun f g : fam => fst f = fst g /\ forall j, (j < fst f)%nat -> snd f j = snd g j) (lin_primal P ap e v) (primal_fams P (moved ap ad e v)).
Proof.
  intros (_ & _ & _ & _ & Fc & Fd) Hv. destruct HD as (D1 & D2 & _). destruct Hv as (V1 & V2 & _).
  unfold lin_primal, primal_fams. repeat constructor; cbn [fst snd]; intros j Hj; unfold moved; cbn [e_x e_s].
  - rewrite Fc by assumption. ring.
  - rewrite Fd by assumption. rewrite plus_el by lia. ring.
Qed.
End Lin.
