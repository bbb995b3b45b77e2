(** The mu oracles. *)
From Coq Require Import Reals List Arith Bool Lra Lia.
From Verif Require Import CQModel CQSpec CQVec CQFuns PdModel PdSpec PdAlg PdProofs PdLoop PdSearch QfModel QfSpec.
From Verif Require AmuModel.
Import ListNotations.
Open Scope R_scope.
Local Notation "v .[ i ]" := (nth i v 0) (at level 1, format "v .[ i ]").

(** * norms *)
Lemma norm_scal t c fs gs r : 0 <= c ->
  Forall2 (fun f g : fam => fst f = fst g /\ forall i, (i < fst f)%nat -> snd g i = c * snd f i) fs gs ->
  norm_is t fs r -> norm_is t gs (c * r).
Proof.
  intros Hc H. destruct t; cbn.
  - intros ->. induction H as [|f g fs gs [E H0] H IH]; cbn; [ring|]. rewrite Rmult_plus_distr_l, IH, <- E. f_equal.
    rewrite <- sumn_scal. apply sumn_ext. intros i Hi. rewrite H0 by exact Hi. rewrite Rabs_mult, (Rabs_right c) by lra. reflexivity.
  - intros ->.
    assert (G : fold_right Rplus 0 (map (fun f : fam => sumn (fst f) (fun i => snd f i * snd f i)) gs) =
                c * c * fold_right Rplus 0 (map (fun f : fam => sumn (fst f) (fun i => snd f i * snd f i)) fs)).
    { induction H as [|f g fs gs [E H0] H IH]; cbn; [ring|]. rewrite IH, <- E, Rmult_plus_distr_l. f_equal.
      rewrite <- sumn_scal. apply sumn_ext. intros i Hi. rewrite H0 by exact Hi. ring. }
    rewrite G. rewrite sqrt_mult_alt by nra. rewrite sqrt_square by exact Hc. reflexivity.
  - assert (G : forall g, In g gs -> exists f, In f fs /\ fst f = fst g /\ forall i, (i < fst f)%nat -> snd g i = c * snd f i).
    { clear -H. induction H as [|f g fs gs E H IH]; intros h; cbn; [tauto|]. intros [<-|Hh]; [exists f; tauto|]. destruct (IH h Hh) as (f' & ? & ?). exists f'; auto. }
    assert (G' : forall f, In f fs -> exists g, In g gs /\ fst f = fst g /\ forall i, (i < fst f)%nat -> snd g i = c * snd f i).
    { clear -H. induction H as [|f g fs gs E H IH]; intros h; cbn; [tauto|]. intros [<-|Hh]; [exists g; tauto|]. destruct (IH h Hh) as (f' & ? & ?). exists f'; auto. }
    intros [A1 A2]. split.
    + intros g i Hg Hi. destruct (G g Hg) as (f & Hf & E & E'). rewrite E' by lia. rewrite Rabs_mult, (Rabs_right c) by lra.
      apply Rmult_le_compat_l; [exact Hc|]. apply A1; [exact Hf|lia].
    + destruct A2 as [A2|(f & i & Hf & Hi & A2)]; [left; rewrite A2; ring|right]. destruct (G' f Hf) as (g & Hg & E & E').
      exists g, i. repeat split; [exact Hg|lia|]. rewrite E' by exact Hi. rewrite Rabs_mult, (Rabs_right c), A2 by lra. reflexivity.
Qed.
Lemma measure_ext k n fs gs r :
  Forall2 (fun f g : fam => fst f = fst g /\ forall i, (i < fst f)%nat -> snd f i = snd g i) fs gs -> measure k n fs r -> measure k n gs r.
Proof.
  intros H. assert (G : forall t q, norm_is t fs q -> norm_is t gs q).
  { intros t q. apply norm_ext. clear -H. induction H as [|f g fs gs [E H0] H IH]; constructor; [|exact IH]. split; [exact E|]. intros i Hi. rewrite H0 by exact Hi. reflexivity. }
  destruct k; unfold measure; cbv zeta; intros M; try (destruct M as (t & M & E0); exists t; split; [apply G; exact M|exact E0]). apply G. exact M.
Qed.
Lemma norm_none t fs r : (forall f : fam, In f fs -> fst f = O) -> norm_is t fs r -> r = 0.
Proof.
  intros H. assert (G : forall h : fam -> nat -> R, fold_right Rplus 0 (map (fun f : fam => sumn (fst f) (h f)) fs) = 0).
  { intros h. induction fs as [|f fs IH]; [reflexivity|]. cbn. rewrite (H f) by (left; reflexivity). cbn. rewrite IH; [ring|]. intros g Hg. apply H. right. exact Hg. }
  destruct t; cbn.
  - intros ->. apply (G (fun f i => Rabs (snd f i))).
  - intros ->. rewrite (G (fun f i => snd f i * snd f i)). apply sqrt_0.
  - intros [_ [E|(f & i & Hf & Hi & _)]]; [exact E|]. rewrite (H f Hf) in Hi. lia.
Qed.

(** * the point the step leads to *)
Section Pt.
Variables (P : nlp) (o : opts) (B : bd -> vec) (m tau : R) (e : env) (i : oin).
Hypotheses (HP : nlp_ok P) (HD : dims_ok P e) (HA : asked_at P o B m tau e i) (HPos : positive P B e).

Lemma plus_el v t d k : (k < length v)%nat -> (plus v t d).[k] = v.[k] + t * d.[k].
Proof. intros Hk. unfold plus. apply (mk_el (length v) (fun j => v.[j] + t * d.[j]) k Hk). Qed.
Lemma plus_len v t d : length (plus v t d) = length v.
Proof. apply mk_len. Qed.
Lemma posb b k : (k < nb P b)%nat -> (nth k (pos P b) O < match b with XL | XU => n_x P | _ => n_s P end)%nat.
Proof. intros Hk. apply (ok_pos _ HP b). apply nth_In. exact Hk. Qed.
Lemma sl_moved ap ad v b k : (k < nb P b)%nat -> sl P B b (moved ap ad e v) k = sl P B b e k + ap * dsl P b (vx v) (vs v) k.
Proof.
  intros Hk. pose proof (posb b k Hk) as Hp. destruct HD as (D1 & D2 & _).
  unfold sl, dsl, moved. cbn [e_x e_s]. destruct b; rewrite plus_el by lia; ring.
Qed.
Lemma mul_moved ap ad v b k : (k < nb P b)%nat -> mul b (moved ap ad e v) k = mul b e k + ad * (dz v b).[k].
Proof.
  intros Hk. destruct HD as (_ & _ & _ & _ & D5 & D6 & D7 & D8).
  unfold mul, moved, dz. cbn [e_zL e_zU e_vL e_vU]. destruct b; rewrite plus_el by lia; reflexivity.
Qed.
Lemma zpart_dz b v : zpart b v = dz v b.
Proof. destruct b; reflexivity. Qed.
Lemma dz_len v b : iv_dims P v -> length (dz v b) = nb P b.
Proof. intros (_ & _ & _ & _ & A5 & A6 & A7 & A8). destruct b; assumption. Qed.
Lemma xpart_dsl v b al (y : vec) be g : iv_dims P v -> (forall k, (k < nb P b)%nat -> be * el y k = be * g k) ->
  vec_is (ptmul (pos P b) (sgnb b * al) (xpart b v) be y) (nb P b) (fun k => be * g k + al * dsl P b (vx v) (vs v) k).
Proof.
  intros (A1 & A2 & _) Hy.
  eapply vis_ext; [eapply ptmul_is with (n := match b with XL | XU => n_x P | _ => n_s P end) (m := nb P b) (g := g)|].
  - apply vis_self. destruct b; assumption.
  - apply (ok_pos _ HP b).
  - reflexivity.
  - exact Hy.
  - intros k _. unfold dsl, xpart, sgnb. destruct b; cbn [pos]; ring.
Qed.
Lemma slack_step_is v b : iv_dims P v -> vec_is (slack_step P b v) (nb P b) (dsl P b (vx v) (vs v)).
Proof.
  intros Hv. unfold slack_step. rewrite <- (Rmult_1_r (sgnb b)).
  eapply vis_ext; [apply (xpart_dsl v b 1 (zpart b v) 0 (fun _ => 0) Hv)|].
  - intros k _. ring.
  - intros k _. cbv beta. ring.
Qed.

(** ** the affine step *)
Lemma aff_part_is ap ad v b : iv_dims P v ->
  aff_part P i ap ad v b = sumn (nb P b) (fun k => mul b (moved ap ad e v) k * sl P B b (moved ap ad e v) k).
Proof.
  intros Hv. unfold aff_part. pose proof (a_sl _ _ _ _ _ _ _ HA b) as S. pose proof (a_mul _ _ _ _ _ _ _ HA b) as M.
  rewrite (vis_len _ _ _ S). destruct (Nat.ltb_spec 0 (nb P b)) as [N|N].
  - rewrite zpart_dz. rewrite (dot_is _ _ (nb P b) (fun k => 1 * sl P B b e k + ap * dsl P b (vx v) (vs v) k) (fun k => mul b e k + ad * (dz v b).[k])).
    + apply sumn_ext. intros k Hk. rewrite sl_moved, mul_moved by exact Hk. ring.
    + apply xpart_dsl; [exact Hv|]. intros k Hk. rewrite (vis_el _ _ _ _ S Hk). reflexivity.
    + apply axpy_is; [apply vis_self; apply dz_len; exact Hv|exact M].
  - replace (nb P b) with O by lia. reflexivity.
Qed.
Lemma ncomp_is : ncomp i = ntot P.
Proof. unfold ncomp, ntot. rewrite !(vis_len _ _ _ (a_sl _ _ _ _ _ _ _ HA _)). reflexivity. Qed.
Lemma affine_mu_is ap ad v : iv_dims P v -> affine_mu P i ap ad v = avrg P B (moved ap ad e v).
Proof.
  intros Hv. unfold affine_mu, avrg, sumb. rewrite !aff_part_is by exact Hv. rewrite ncomp_is.
  destruct (Nat.eqb_spec (ntot P) 0) as [N|N]; [|f_equal; ring].
  unfold ntot in N. replace (nb P XL) with O by lia. replace (nb P XU) with O by lia. replace (nb P SL) with O by lia. replace (nb P SU) with O by lia.
  cbn [sumn]. unfold Rdiv. ring.
Qed.

(** ** step sizes *)
Lemma frac4_dual dvs tau' : 0 <= tau' -> (forall b, length (dvs b) = nb P b) ->
  dftb P tau' e dvs (frac4 (i_mul i) dvs tau').
Proof.
  intros Ht Hl. unfold dftb, all_b, frac4. cbn [map].
  eapply ftb4; [apply frok_is|apply frok_is|apply frok_is|apply frok_is|]; try exact Ht; try apply (a_mul _ _ _ _ _ _ _ HA); try (apply vis_self; apply Hl);
    try (intros k Hk; destruct (HPos _ k Hk); lra).
  intros z. rewrite !Rmin_iff. tauto.
Qed.
Lemma frac4_slack w tau' dx ds : 0 <= tau' -> (forall b, vec_is (w b) (nb P b) (dsl P b dx ds)) ->
  pftb P B tau' e dx ds (frac4 (i_sl i) w tau').
Proof.
  intros Ht Hl. unfold pftb, all_b, frac4. cbn [map].
  eapply ftb4; [apply frok_is|apply frok_is|apply frok_is|apply frok_is|]; try exact Ht; try apply (a_sl _ _ _ _ _ _ _ HA); try apply Hl;
    try (intros k Hk; destruct (HPos _ k Hk); lra).
  intros z. rewrite !Rmin_iff. tauto.
Qed.
Lemma primal_frac_is tau' dx ds : 0 <= tau' -> length dx = n_x P -> length ds = n_s P -> pftb P B tau' e dx ds (primal_frac P i tau' dx ds).
Proof.
  intros Ht Hx Hs. unfold primal_frac, calc_frac, pftb, all_b. cbn [map].
  assert (K : forall b al, (al = 1 /\ (b = XL \/ b = SL)) \/ (al = -1 /\ (b = XU \/ b = SU)) ->
    vec_is (ptmul (pos P b) al (match b with XL | XU => dx | _ => ds end) 0 []) (nb P b) (dsl P b dx ds)).
  { intros b al Hb. eapply vis_ext; [eapply ptmul_is with (n := match b with XL | XU => n_x P | _ => n_s P end) (m := nb P b) (g := fun _ => 0)|].
    - apply vis_self. destruct b; assumption.
    - apply (ok_pos _ HP b).
    - reflexivity.
    - intros k _. ring.
    - intros k _. unfold dsl. destruct Hb as [[-> [-> | ->]]|[-> [-> | ->]]]; cbn [pos]; ring. }
  eapply ftb4; [apply frok_if|apply frok_if|apply frok_if|apply frok_if|]; try exact Ht; try apply (a_sl _ _ _ _ _ _ _ HA); try (intros k Hk; destruct (HPos _ k Hk); lra).
  - apply (K XL 1). tauto.
  - apply (K XU (-1)). tauto.
  - apply (K SL 1). tauto.
  - apply (K SU (-1)). tauto.
  - intros z. rewrite !Rmin_iff. tauto.
Qed.

(** after a step to the boundary slacks and multipliers are not negative *)
Lemma moved_nonneg tau' v ap ad : 0 <= tau' <= 1 -> pftb P B tau' e (vx v) (vs v) ap -> dftb P tau' e (dz v) ad ->
  forall b k, (k < nb P b)%nat -> (1 - tau') * sl P B b e k <= sl P B b (moved ap ad e v) k /\ (1 - tau') * mul b e k <= mul b (moved ap ad e v) k.
Proof.
  intros Ht (_ & Hp & _) (_ & Hd & _) b k Hk. rewrite sl_moved, mul_moved by exact Hk. split.
  - specialize (Hp (nb P b) (sl P B b e) (dsl P b (vx v) (vs v)) k). apply Rge_le, Hp; [|exact Hk].
    apply (in_map (fun b => (nb P b, sl P B b e, dsl P b (vx v) (vs v)))). destruct b; cbn; tauto.
  - specialize (Hd (nb P b) (mul b e) (fun k => (dz v b).[k]) k). apply Rge_le, Hd; [|exact Hk].
    apply (in_map (fun b => (nb P b, mul b e, fun k => (dz v b).[k]))). destruct b; cbn; tauto.
Qed.
Lemma sumb_nonneg f : (forall b, 0 <= f b) -> 0 <= sumb f.
Proof. intros H. unfold sumb. pose proof (H XL). pose proof (H XU). pose proof (H SL). pose proof (H SU). lra. Qed.
Lemma avrg_nonneg e' : (forall b k, (k < nb P b)%nat -> 0 <= sl P B b e' k /\ 0 <= mul b e' k) -> 0 <= avrg P B e'.
Proof.
  intros H. unfold avrg. destruct (Nat.eqb_spec (ntot P) 0) as [N|N]; [lra|].
  apply Rmult_le_pos; [|left; apply Rinv_0_lt_compat; apply lt_0_INR; lia].
  apply sumb_nonneg. intros b. apply sumn_nonneg. intros k Hk. destruct (H b k Hk). nra.
Qed.
Lemma avrg_pos : (0 < ntot P)%nat -> 0 < avrg P B e.
Proof.
  intros N. unfold avrg. destruct (Nat.eqb_spec (ntot P) 0) as [N0|_]; [lia|].
  apply Rmult_lt_0_compat; [|apply Rinv_0_lt_compat; apply lt_0_INR; exact N].
  assert (G : forall b, 0 <= sumn (nb P b) (fun k => mul b e k * sl P B b e k)).
  { intros b. apply sumn_nonneg. intros k Hk. destruct (HPos b k Hk). nra. }
  assert (G' : forall b, (0 < nb P b)%nat -> 0 < sumn (nb P b) (fun k => mul b e k * sl P B b e k)).
  { intros b Hb. eapply Rlt_le_trans; [|apply (sumn_ge0 (nb P b) _ O)]; [|intros k Hk; destruct (HPos b k Hk); nra|exact Hb].
    destruct (HPos b O Hb). nra. }
  unfold sumb. pose proof (G XL). pose proof (G XU). pose proof (G SL). pose proof (G SU). unfold ntot in N.
  destruct (Nat.eq_dec (nb P XL) 0); [destruct (Nat.eq_dec (nb P XU) 0); [destruct (Nat.eq_dec (nb P SL) 0)|]|].
  - pose proof (G' SU ltac:(lia)). lra.
  - pose proof (G' SL ltac:(lia)). lra.
  - pose proof (G' XU ltac:(lia)). lra.
  - pose proof (G' XL ltac:(lia)). lra.
Qed.
Lemma newton_compl W d t m' v b k : newton_step P o B m' e W d t v -> (k < nb P b)%nat ->
  sl P B b e k * mul b e k + t b k + mul b e k * dsl P b (vx v) (vs v) k + sl P B b e k * (dz v b).[k] = m'.
Proof.
  intros (_ & _ & _ & _ & _ & Z1 & Z2 & Z3 & Z4) Hk.
  destruct b; [specialize (Z1 k Hk)|specialize (Z2 k Hk)|specialize (Z3 k Hk)|specialize (Z4 k Hk)]; unfold dsl, dz; lra.
Qed.
(** the average complementarity along a Newton step for barrier parameter m', with one step length *)
Lemma avrg_moved W d m' v al : newton_step P o B m' e W d (fun _ _ => 0) v -> (0 < ntot P)%nat ->
  avrg P B (moved al al e v) = (1 - al) * avrg P B e + al * m' + al * al * (cross P v / INR (ntot P)).
Proof.
  intros HN N. unfold avrg. destruct (Nat.eqb_spec (ntot P) 0) as [N0|_]; [lia|].
  assert (G : forall b, sumn (nb P b) (fun k => mul b (moved al al e v) k * sl P B b (moved al al e v) k) =
    (1 - al) * sumn (nb P b) (fun k => mul b e k * sl P B b e k) + al * m' * INR (nb P b) + al * al * sumn (nb P b) (fun k => dsl P b (vx v) (vs v) k * (dz v b).[k])).
  { intros b. rewrite <- !sumn_scal.
    assert (C : forall n, INR n = sumn n (fun _ => 1)) by (intros n; induction n; [reflexivity|]; rewrite S_INR; cbn [sumn]; rewrite IHn; reflexivity).
    rewrite C, <- sumn_scal, <- !sumn_plus. apply sumn_ext. intros k Hk. rewrite sl_moved, mul_moved by exact Hk.
    pose proof (newton_compl W d _ m' v b k HN Hk) as E. cbv beta in E.
    replace ((mul b e k + al * (dz v b).[k]) * (sl P B b e k + al * dsl P b (vx v) (vs v) k)) with
      (mul b e k * sl P B b e k + al * (mul b e k * dsl P b (vx v) (vs v) k + sl P B b e k * (dz v b).[k]) + al * al * (dsl P b (vx v) (vs v) k * (dz v b).[k])) by ring.
    replace (mul b e k * dsl P b (vx v) (vs v) k + sl P B b e k * (dz v b).[k]) with (m' - sl P B b e k * mul b e k) by lra. ring. }
  unfold sumb, cross. rewrite !G. unfold sumb.
  assert (I : INR (ntot P) = INR (nb P XL) + INR (nb P XU) + INR (nb P SL) + INR (nb P SU)) by (unfold ntot; rewrite !plus_INR; reflexivity).
  assert (I0 : INR (ntot P) <> 0) by (apply not_0_INR; lia).
  apply (Rmult_eq_reg_r (INR (ntot P))); [|exact I0]. field_simplify; [|exact I0|exact I0]. rewrite I. ring.
Qed.
End Pt.
