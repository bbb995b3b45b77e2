(** Each question is answered with the textbook value, and the meaning of the caches is kept. *)
From Coq Require Import Reals List Arith Bool Lra Lia.
From Verif Require Import CQModel CQSpec CQVec CQProofs.
Import ListNotations.
Open Scope R_scope.

Section Funs.
Variables (P : nlp) (o : opts) (safe fixmu : bool) (B0 : bd -> vec) (mu0 : R).
Hypothesis HP : nlp_ok P.
Hypothesis Ho : opts_ok o.
Local Notation "v .[ i ]" := (nth i v 0) (at level 1, format "v .[ i ]").
Local Notation mucond := (mucond P fixmu).
Local Notation nb := (nb P).
Local Notation sl := (sl P B0).
Local Notation NSpec := (NSpec P o safe fixmu B0 mu0).
Local Notation VSpec := (VSpec P o safe fixmu B0 mu0).
Local Notation Inv := (Inv P o safe fixmu B0 mu0).
Local Notation wp := (wp P o safe fixmu B0 mu0).
Local Notation wpV := (wpV P o safe fixmu B0 mu0).
Local Notation wpN := (wpN P o safe fixmu B0 mu0).

(** move the facts about a state to a later state *)
Ltac fwd HE :=
  match type of HE with ext ?s ?s' =>
    repeat match goal with H : hv s _ _ |- _ => apply (hv_mono _ _ _ _ HE) in H end;
    try match goal with HV : vw s = ?V |- _ => rewrite <- (proj2 HE) in HV end;
    repeat match goal with H : CQProofs.Inv _ _ _ _ _ _ s |- _ => clear H end;
    clear HE
  end.
Ltac its w :=
  match goal with HI : CQProofs.Inv _ _ _ _ _ _ ?s, HV : vw ?s = ?V |- _ =>
    let H := fresh "Hit" in pose proof (it_all _ _ _ _ _ _ s V w HI HV) as H;
    destruct H as (?H & ?H & ?H & ?H & ?H & ?H & ?H & ?H)
  end.
Ltac sV L := eapply wp_bindV; [eapply L; eassumption|];
  let t := fresh "t" in let v := fresh "v" in let s := fresh "s" in let HE := fresh "HE" in
  let HQ := fresh "HQ" in intros t v s ? HE ? HQ; cbv beta in HQ; fwd HE.
Ltac sN L := eapply wp_bindN; [eapply L; eassumption|];
  let v := fresh "r" in let s := fresh "s" in let HE := fresh "HE" in
  let HQ := fresh "HQ" in intros v s ? HE HQ; cbv beta in HQ; fwd HE.
Ltac sget := match goal with HV : vw ?s = ?V |- context [bind ?m _] =>
  match m with
  | tg _ _ => apply (wp_tg _ _ _ _ _ _ _ _ _ _ s V HV)
  | cmu => apply (wp_mu _ _ _ _ _ _ _ _ s V HV)
  | gets _ => apply (wp_bnd _ _ _ _ _ _ _ _ _ s V HV)
  end end.
Ltac srd := eapply wp_rd; [eassumption|].
Ltac keys := repeat (apply Forall2_cons; [eassumption|]); apply Forall2_nil.
Ltac cV := eapply wpV_conseq; [eapply wp_qv; [assumption|keys|first [exact Logic.I|intros ? H; exact H]|]|].
Ltac cN := eapply wpN_conseq; [eapply wp_qn; [assumption|keys|first [exact Logic.I|intros ? H; exact H]|]|].
Ltac new := apply wp_newv; [assumption|].
Ltac done := apply wp_ret; [assumption|].

Lemma gobj_dep m x : gobj P (if dep_mu P then m else -1) x = gobj P m x.
Proof. unfold gobj. destruct (dep_mu P); reflexivity. Qed.
Lemma obj_dep m x : obj P (if dep_mu P then m else -1) x = obj P m x.
Proof. unfold obj. destruct (dep_mu P); reflexivity. Qed.
Lemma gobj_mu s V x : Inv s -> vw s = V -> mucond -> gobj P (v_mu V) x = gobj P mu0 x.
Proof.
  intros HI <- [H|H]; unfold gobj; [rewrite H; reflexivity|]. cbn. rewrite (I_mu _ _ _ _ _ _ _ HI H). reflexivity.
Qed.
Lemma gobj_len m x : length (gobj P m x) = n_x P.
Proof. unfold gobj. destruct (dep_mu P); [apply ok_gm|apply ok_g]; exact HP. Qed.
Lemma nnum_inj t t' : nnum t = nnum t' -> t = t'.
Proof. destruct t, t'; cbn; intros H; try reflexivity; exfalso; lra. Qed.

Lemma ok_f s V w : Inv s -> vw s = V -> wpN (cq_f P w) (fun r => r = obj P (v_mu V) (e_x (v_env V w))) s.
Proof.
  intros HI HV. its w. unfold cq_f. sget. sget. cN.
  - srd. done. unfold mudep. cbn [CQProofs.NSpec]. rewrite obj_dep. reflexivity.
  - intros r H7. unfold mudep in H7. cbn [CQProofs.NSpec] in H7. rewrite obj_dep in H7. exact H7.
Qed.
Lemma ok_unf s V w : Inv s -> vw s = V -> wpN (cq_unscaled_f P w) (fun r => r = obj P (v_mu V) (e_x (v_env V w)) / so P) s.
Proof.
  intros HI HV. unfold cq_unscaled_f. sN ok_f. done. subst. reflexivity.
Qed.
Lemma ok_gradf s V w : Inv s -> vw s = V -> wpV (cq_grad_f P w) (fun r => r = gobj P (v_mu V) (e_x (v_env V w))) s.
Proof.
  intros HI HV. its w. unfold cq_grad_f. sget. sget. cV.
  - srd. new. unfold mudep. cbn [CQProofs.VSpec]. rewrite gobj_dep. reflexivity.
  - intros r H7. unfold mudep in H7. cbn [CQProofs.VSpec] in H7. rewrite gobj_dep in H7. exact H7.
Qed.
Lemma ok_c s V w : Inv s -> vw s = V -> wpV (cq_c P w) (fun r => r = fn_c P (e_x (v_env V w))) s.
Proof. intros HI HV. its w. unfold cq_c. sget. cV; [srd; new; reflexivity|auto]. Qed.
Lemma ok_d s V w : Inv s -> vw s = V -> wpV (cq_d P w) (fun r => r = fn_d P (e_x (v_env V w))) s.
Proof. intros HI HV. its w. unfold cq_d. sget. cV; [srd; new; reflexivity|auto]. Qed.
Lemma un_is (f : nat -> R) v n : length v = n -> vec_is (mk (dim v) (fun i => el v i / f i)) n (fun i => v.[i] / f i).
Proof. intros <-. apply mk_is'; [reflexivity|]. intros. reflexivity. Qed.
Lemma ok_unc s V w : Inv s -> vw s = V ->
  wpV (cq_unscaled_c P w) (fun r => vec_is r (n_c P) (fun i => (fn_c P (e_x (v_env V w))).[i] / sc P i)) s.
Proof. intros HI HV. unfold cq_unscaled_c. sV ok_c. srd. new. subst. apply un_is. apply CQSpec.ok_c; exact HP. Qed.
Lemma ok_und s V : Inv s -> vw s = V ->
  wpV (cq_unscaled_d P) (fun r => vec_is r (n_s P) (fun i => (fn_d P (e_x (v_env V false))).[i] / sd P i)) s.
Proof. intros HI HV. unfold cq_unscaled_d. sV ok_d. srd. new. subst. apply un_is. apply CQSpec.ok_d; exact HP. Qed.
Lemma dims s V w : Inv s -> vw s = V -> dims_ok P (v_env V w).
Proof. intros HI HV. apply (iv_env _ _ _ _ _ _ s V w HI HV). Qed.
Lemma ok_dms s V w : Inv s -> vw s = V ->
  wpV (cq_d_minus_s P w) (fun r => vec_is r (n_s P) (fun i => (fn_d P (e_x (v_env V w))).[i] - (e_s (v_env V w)).[i])) s.
Proof.
  intros HI HV. its w. pose proof (dims s V w HI HV) as (_ & Dd & _). unfold cq_d_minus_s. sget. sget. cV; [|auto].
  sV ok_d. srd. srd. new. subst. cbn [CQProofs.VSpec].
  eapply vis_ext; [apply vmap2_is; [apply vis_self; apply CQSpec.ok_d; exact HP|apply vis_self; exact Dd]|].
  intros i _. cbv beta. ring.
Qed.
Lemma ok_jc s V w : Inv s -> vw s = V -> wpN (cq_jac_c P w) (fun r => r = fn_Jc P (e_x (v_env V w))) s.
Proof.
  intros HI HV. its w. unfold cq_jac_c. sget. eapply wpN_conseq; [eapply wp_qm; [assumption|keys|intros ? H7; exact H7|]|].
  - srd. done. reflexivity.
  - auto.
Qed.
Lemma ok_jd s V w : Inv s -> vw s = V -> wpN (cq_jac_d P w) (fun r => r = fn_Jd P (e_x (v_env V w))) s.
Proof.
  intros HI HV. its w. unfold cq_jac_d. sget. eapply wpN_conseq; [eapply wp_qm; [assumption|keys|intros ? H7; exact H7|]|].
  - srd. done. reflexivity.
  - auto.
Qed.
Lemma Jv_is J v n m : length v = n -> mc J = n -> mr J = m -> forall y, vec_is (mmul J 1 v 0 y) m (Jv J v).
Proof.
  intros Hv Hc Hr y. eapply vis_ext; [eapply mmul_is; [apply vis_self; exact Hv|exact Hc|exact Hr]|].
  intros i _. unfold Jv. rewrite Hc. ring.
Qed.
Lemma JTv_is J v n m : length v = m -> mc J = n -> mr J = m -> forall y, vec_is (mtmul J 1 v 0 y) n (JTv J v).
Proof.
  intros Hv Hc Hr y. eapply vis_ext; [eapply mtmul_is; [apply vis_self; exact Hv|exact Hc|exact Hr]|].
  intros i _. unfold JTv. rewrite Hr. ring.
Qed.
Lemma ok_jcv s V t v : Inv s -> vw s = V -> hv s t v -> length v = n_x P ->
  wpV (cq_jac_c_times P t) (fun r => vec_is r (n_c P) (Jv (fn_Jc P (e_x (v_env V false))) v)) s.
Proof.
  intros HI HV Ht Hl. its false. unfold cq_jac_c_times. sget. cV; [|auto]. sN ok_jc. srd. new. subst r.
  destruct (ok_Jc P HP (e_x (v_env V false))). eapply Jv_is; eauto.
Qed.
Lemma ok_jdv s V t v : Inv s -> vw s = V -> hv s t v -> length v = n_x P ->
  wpV (cq_jac_d_times P t) (fun r => vec_is r (n_s P) (Jv (fn_Jd P (e_x (v_env V false))) v)) s.
Proof.
  intros HI HV Ht Hl. its false. unfold cq_jac_d_times. sget. cV; [|auto]. sN ok_jd. srd. new. subst r.
  destruct (ok_Jd P HP (e_x (v_env V false))). eapply Jv_is; eauto.
Qed.
Lemma ok_jcT s V w t v : Inv s -> vw s = V -> hv s t v -> length v = n_c P ->
  wpV (cq_jac_cT_times P w t) (fun r => vec_is r (n_x P) (JTv (fn_Jc P (e_x (v_env V w))) v)) s.
Proof.
  intros HI HV Ht Hl. its w. unfold cq_jac_cT_times. sget. cV; [|auto]. sN ok_jc. srd. new. subst r.
  destruct (ok_Jc P HP (e_x (v_env V w))). eapply JTv_is; eauto.
Qed.
Lemma ok_jdT s V w t v : Inv s -> vw s = V -> hv s t v -> length v = n_s P ->
  wpV (cq_jac_dT_times P w t) (fun r => vec_is r (n_x P) (JTv (fn_Jd P (e_x (v_env V w))) v)) s.
Proof.
  intros HI HV Ht Hl. its w. unfold cq_jac_dT_times. sget. cV; [|auto]. sN ok_jd. srd. new. subst r.
  destruct (ok_Jd P HP (e_x (v_env V w))). eapply JTv_is; eauto.
Qed.
Lemma ok_jcTy s V w : Inv s -> vw s = V ->
  wpV (cq_jac_cT_times_y P w) (fun r => vec_is r (n_x P) (JTv (fn_Jc P (e_x (v_env V w))) (e_yc (v_env V w)))) s.
Proof.
  intros HI HV. its w. pose proof (dims s V w HI HV) as D. unfold cq_jac_cT_times_y. sget. eapply ok_jcT; eauto. apply D.
Qed.
Lemma ok_jdTy s V w : Inv s -> vw s = V ->
  wpV (cq_jac_dT_times_y P w) (fun r => vec_is r (n_x P) (JTv (fn_Jd P (e_x (v_env V w))) (e_yd (v_env V w)))) s.
Proof.
  intros HI HV. its w. pose proof (dims s V w HI HV) as D. unfold cq_jac_dT_times_y. sget. eapply ok_jdT; eauto. apply D.
Qed.
Lemma ok_h s V : Inv s -> vw s = V ->
  wpN (cq_hessian P) (fun r => r = hess P (v_mu V) (e_x (v_env V false)) (e_yc (v_env V false)) (e_yd (v_env V false))) s.
Proof.
  intros HI HV. its false. unfold cq_hessian. sget. sget. sget. sget.
  eapply wpN_conseq; [eapply wp_qm; [assumption|keys|exact Logic.I|]|].
  - srd. srd. srd. done. unfold mudep. cbn [CQProofs.MSpec]. unfold hess. destruct (dep_mu P); reflexivity.
  - intros r H7. unfold mudep in H7. cbn [CQProofs.MSpec] in H7. rewrite H7. unfold hess. destruct (dep_mu P); reflexivity.
Qed.

(** slacks *)
Lemma prim_hv s V w b : Inv s -> vw s = V ->
  hv s (prim b (v_it V w)) (match b with XL | XU => e_x (v_env V w) | _ => e_s (v_env V w) end).
Proof. intros HI HV. its w. destruct b; assumption. Qed.
Lemma mult_hv s V w b : Inv s -> vw s = V ->
  hv s (mult b (v_it V w)) (match b with XL => e_zL (v_env V w) | XU => e_zU (v_env V w) | SL => e_vL (v_env V w) | SU => e_vU (v_env V w) end).
Proof. intros HI HV. its w. destruct b; assumption. Qed.
Lemma sl_Exs b e k : sl b (Exs (match b with XL | XU => e_x e | _ => e_s e end)) k = sl b e k.
Proof. destruct b; reflexivity. Qed.
Lemma inv_nadj s b n : Inv s -> Inv (set_nadj s b n).
Proof. intros [? ? ? ? ? ? ? ? ? ?]. constructor; assumption. Qed.
Lemma wp_put {B} b n (g : unit -> M B) Q s : Inv s -> (Inv (set_nadj s b n) -> ext s (set_nadj s b n) -> wp (g tt) Q (set_nadj s b n)) -> wp (bind (put_nadj b n) g) Q s.
Proof.
  intros HI H. unfold bind, put_nadj. specialize (H (inv_nadj _ _ _ HI)).
  assert (E : ext s (set_nadj s b n)) by (apply ext_same; reflexivity). specialize (H E).
  unfold CQProofs.wp in *. destruct (g tt (set_nadj s b n)) as [a s']. destruct H as (H1 & H2 & H3).
  split; [exact H1|]. split; [eapply ext_trans; eauto|exact H3].
Qed.
Lemma calc_slack_is b x xb n : length x = n -> length xb = nb b -> (forall i, In i (pos P b) -> (i < n)%nat) ->
  vec_is (calc_slack P b x xb) (nb b) (fun k => match b with XL | SL => x.[nth k (pos P b) O] - xb.[k] | _ => xb.[k] - x.[nth k (pos P b) O] end).
Proof.
  intros Hx Hb Hp. assert (Hs := vis_self x n Hx).
  destruct b; cbn [calc_slack]; (eapply vis_ext; [eapply ptmul_is; [exact Hs|exact Hp|reflexivity|intros k _; reflexivity]|]);
    intros k _; cbv beta; unfold el; ring.
Qed.
Lemma safe_slack_id m sk xb mu n f : vec_is sk n f -> (forall k, (k < n)%nat -> mach_eps o <= f k) ->
  safe_slack o m sk xb mu = (sk, 0%Z).
Proof.
  intros Hs Hf. unfold safe_slack. rewrite (vis_len _ _ _ Hs). destruct (Nat.eqb_spec n 0) as [|Hn]; [reflexivity|].
  destruct (vmin_is _ _ _ Hs) as [_ (i & Hi & E)]; [lia|]. rewrite E. specialize (Hf i Hi).
  destruct (Rlt_dec (f i) _) as [H|]; [|reflexivity]. exfalso. revert H. pose proof (ok_tiny _ Ho). pose proof (ok_eps _ Ho).
  destruct (Req_EM_T _ 0); [lra|]. pose proof (Rmin_l 1 m). assert (mach_eps o * Rmin 1 m <= mach_eps o * 1) by (apply Rmult_le_compat_l; lra). lra.
Qed.
Lemma ok_slack s V w b : Inv s -> vw s = V ->
  wpV (cq_slack P o w b) (fun v => safe = true -> vec_is v (nb b) (sl b (v_env V w))) s.
Proof.
  intros HI HV.
  assert (G : forall s, Inv s -> vw s = V -> wpV (
    do t <- tg w (prim b);
    qv (VC_slack w b) (Some (VC_slack (negb w) b)) ([t], [])
    (do x <- rd t; do xb <- gets (fun s => bnd s b);
     do tm <- tg false (mult b); do m <- rd tm; do amu <- cmu;
     let r := safe_slack o amu (calc_slack P b x xb) xb m in
     do u <- put_nadj b (snd r);
     newv (fst r))) (fun v => safe = true -> vec_is v (nb b) (sl b (v_env V w))) s).
  { clear s HI HV. intros s HI HV. pose proof (prim_hv s V w b HI HV) as H1. pose proof (mult_hv s V false b HI HV) as H2.
    destruct (iv_env _ _ _ _ _ _ s V w HI HV) as [D HIn]. destruct (iv_bnd _ _ _ _ _ _ s V b HI HV) as [D2 HB].
    sget. cV.
    - srd. sget. sget. srd. sget. cbv zeta. apply wp_put; [exact HI|]. intros HI' HE. fwd HE. new.
      cbn [CQProofs.VSpec]. intros Hs. rewrite (HB Hs) in *.
      assert (C : vec_is (calc_slack P b (match b with XL | XU => e_x (v_env V w) | _ => e_s (v_env V w) end) (B0 b)) (nb b) (sl b (v_env V w))).
      { eapply vis_ext; [eapply calc_slack_is; [reflexivity|exact D2|]|].
        - intros i Hi. pose proof (ok_pos P HP b i Hi). destruct b; (destruct D as (D & D' & _); rewrite ?D, ?D'; assumption).
        - intros k _. destruct b; reflexivity. }
      rewrite (safe_slack_id _ _ _ _ _ _ C) by (intros k Hk; apply (HIn Hs b k Hk)). cbn [fst].
      eapply vis_ext; [exact C|]. intros k _. symmetry. apply sl_Exs.
    - intros v H7 Hs. cbn [CQProofs.VSpec] in H7. eapply vis_ext; [exact (H7 Hs)|]. intros k _. apply sl_Exs. }
  unfold cq_slack. destruct w.
  - apply wp_put; [exact HI|]. intros HI' HE. apply G; [exact HI'|]. rewrite (proj2 HE). exact HV.
  - apply (G s); assumption.
Qed.

(** damping indicators *)
Definition dampv := (fst (damp_LU (n_x P) (pxL P) (pxU P)), snd (damp_LU (n_x P) (pxL P) (pxU P)),
                     fst (damp_LU (n_s P) (pdL P) (pdU P)), snd (damp_LU (n_s P) (pdL P) (pdU P))).
Lemma ok_damp s V : Inv s -> vw s = V -> wpN (cq_damp P) (fun d => d = dampv) s.
Proof.
  intros HI HV. unfold cq_damp. apply wp_gets. destruct (damp s) as [d|] eqn:E.
  - apply wp_ret; [exact HI|]. apply (I_damp _ _ _ _ _ _ _ HI d E).
  - cbv zeta. split; [|split; [apply ext_same; reflexivity|reflexivity]].
    destruct HI as [? ? ? ? ? ? ? ? ? ?]. constructor; try assumption. intros d Hd. injection Hd as <-. reflexivity.
Qed.
Lemma damp_x_is : vec_is (fst (damp_LU (n_x P) (pxL P) (pxU P))) (nb XL) (ind P XL) /\ vec_is (snd (damp_LU (n_x P) (pxL P) (pxU P))) (nb XU) (ind P XU).
Proof. apply damp_is; [apply (ok_pos P HP XL)|apply (ok_pos P HP XU)|apply (ok_nd P HP XL)|apply (ok_nd P HP XU)]. Qed.
Lemma damp_s_is : vec_is (fst (damp_LU (n_s P) (pdL P) (pdU P))) (nb SL) (ind P SL) /\ vec_is (snd (damp_LU (n_s P) (pdL P) (pdU P))) (nb SU) (ind P SU).
Proof. apply damp_is; [apply (ok_pos P HP SL)|apply (ok_pos P HP SU)|apply (ok_nd P HP SL)|apply (ok_nd P HP SU)]. Qed.
Lemma ind_01 b k : 0 <= ind P b k <= 1.
Proof. unfold ind. destruct (existsb _ _); lra. Qed.
Lemma damp_term_is m b a e v : vec_is a (nb b) (sl b e) -> vec_is v (nb b) (ind P b) -> interior P o B0 e ->
  damp_term o m a v = kappa_d o * m * sumn (nb b) (fun k => ind P b k * sl b e k).
Proof.
  intros Ha Hv HIn. unfold damp_term. f_equal. rewrite (asum_is _ _ _ (vmap2_is Rmult _ _ _ _ _ Ha Hv)). apply sumn_ext.
  intros k Hk. specialize (HIn b k Hk). pose proof (ok_eps _ Ho). pose proof (ind_01 b k). rewrite Rabs_right; [ring|]. apply Rle_ge, Rmult_le_pos; lra.
Qed.
Lemma ok_barterm s V m e a b c d : Inv s -> vw s = V -> (safe = true -> interior P o B0 e) ->
  (safe = true -> vec_is a (nb XL) (sl XL e)) -> (safe = true -> vec_is b (nb XU) (sl XU e)) ->
  (safe = true -> vec_is c (nb SL) (sl SL e)) -> (safe = true -> vec_is d (nb SU) (sl SU e)) ->
  wpN (calc_barrier_term P o m a b c d) (fun r => safe = true ->
    r = - m * sumb (fun b => sumn (nb b) (fun k => ln (sl b e k))) + kappa_d o * m * sumb (fun b => sumn (nb b) (fun k => ind P b k * sl b e k))) s.
Proof.
  intros HI HV HIn Ha Hb Hc Hd. unfold calc_barrier_term. cbv zeta. pose proof (ok_kappa _ Ho) as Hk.
  assert (Lg : safe = true -> 0 + sumlogs a + sumlogs b + sumlogs c + sumlogs d = sumb (fun b => sumn (nb b) (fun k => ln (sl b e k)))).
  { intros Hs. rewrite (sumlogs_is _ _ _ (Ha Hs)), (sumlogs_is _ _ _ (Hb Hs)), (sumlogs_is _ _ _ (Hc Hs)), (sumlogs_is _ _ _ (Hd Hs)). unfold sumb. ring. }
  destruct (Rlt_dec 0 (kappa_d o)) as [Hp|Hp].
  - sN ok_damp. rewrite HQ. unfold dampv. done. intros Hs. rewrite (Lg Hs).
    destruct damp_x_is as [X1 X2]. destruct damp_s_is as [S1 S2].
    rewrite (damp_term_is m XL a e _ (Ha Hs) X1 (HIn Hs)), (damp_term_is m XU b e _ (Hb Hs) X2 (HIn Hs)),
      (damp_term_is m SL c e _ (Hc Hs) S1 (HIn Hs)), (damp_term_is m SU d e _ (Hd Hs) S2 (HIn Hs)). unfold sumb. ring.
  - done. intros Hs. rewrite (Lg Hs). replace (kappa_d o) with 0 by lra. ring.
Qed.
Lemma env_E2 b e : (fun k => sl b (E2 (e_x e) (e_s e)) k) = (fun k => sl b e k).
Proof. destruct b; reflexivity. Qed.
Lemma barrier_E2 m e : barrier P o B0 m (E2 (e_x e) (e_s e)) = barrier P o B0 m e.
Proof. reflexivity. Qed.
Lemma ok_bar s V w : Inv s -> vw s = V ->
  wpN (cq_barrier_obj P o w) (fun r => safe = true -> r = barrier P o B0 (v_mu V) (v_env V w)) s.
Proof.
  intros HI HV. its w. unfold cq_barrier_obj. sget. sget. sget. cN.
  - sN ok_f. sV ok_slack. sV ok_slack. sV ok_slack. sV ok_slack. srd. srd. srd. srd.
    destruct (iv_env _ _ _ _ _ _ _ V w ltac:(eassumption) HV) as [_ HIn].
    eapply wp_bindN; [eapply ok_barterm; eassumption|]. intros r' s' HI' HE HQ'. fwd HE. done.
    cbn [CQProofs.NSpec]. intros Hs. rewrite (HQ' Hs), HQ. transitivity (barrier P o B0 (v_mu V) (v_env V w)); [unfold barrier; ring|reflexivity].
  - intros r Hr. exact Hr.
Qed.
Lemma ok_gbx s V : Inv s -> vw s = V ->
  wpV (cq_grad_barrier_x P o) (fun v => safe = true -> vec_is v (n_x P) (gbar_x P o B0 (v_mu V) (v_env V false))) s.
Proof.
  intros HI HV. its false. unfold cq_grad_barrier_x. sget. sget. cV.
  - sV ok_gradf. srd. sV ok_slack. srd. sV ok_slack. srd. cbv zeta.
    assert (A : safe = true -> vec_is (pmsinvz (pxU P) (v_mu V) v1 (vset (length (pxU P)) 1) (pmsinvz (pxL P) (- v_mu V) v0 (vset (length (pxL P)) 1) v)) (n_x P)
       (fun i => (gobj P (v_mu V) (e_x (v_env V false))).[i] - v_mu V * scat (pxL P) (fun k => 1 / sl XL (v_env V false) k) i
                 + v_mu V * scat (pxU P) (fun k => 1 / sl XU (v_env V false) k) i)).
    { intros Hs. eapply vis_ext.
      - eapply pmsinvz_is; [exact (HQ1 Hs)|apply vset_is| |apply (ok_pos P HP XU)].
        eapply pmsinvz_is; [exact (HQ0 Hs)|apply vset_is| |apply (ok_pos P HP XL)].
        rewrite HQ. apply vis_self, gobj_len.
      - intros i _. cbv beta. ring. }
    destruct (Rlt_dec 0 (kappa_d o)) as [Hp|Hp].
    + sN ok_damp. rewrite HQ2. unfold dampv. new. cbn [CQProofs.VSpec]. intros Hs. destruct damp_x_is as [X1 X2].
      eapply vis_ext.
      * eapply pmul_is; [exact X2| |apply (ok_pos P HP XU)]. eapply pmul_is; [exact X1|exact (A Hs)|apply (ok_pos P HP XL)].
      * intros i _. cbv beta. unfold gbar_x, dampg_x. cbn [Exs e_x pos]. change (sl XL (Exs (e_x (v_env V false)))) with (sl XL (v_env V false)).
        change (sl XU (Exs (e_x (v_env V false)))) with (sl XU (v_env V false)). ring.
    + new. cbn [CQProofs.VSpec]. intros Hs. eapply vis_ext; [exact (A Hs)|]. intros i _. unfold gbar_x, dampg_x. cbn [Exs e_x pos].
      pose proof (ok_kappa _ Ho). replace (kappa_d o) with 0 by lra.
      change (sl XL (Exs (e_x (v_env V false)))) with (sl XL (v_env V false)).
      change (sl XU (Exs (e_x (v_env V false)))) with (sl XU (v_env V false)). ring.
  - intros v Hv. exact Hv.
Qed.
Lemma ok_gbs s V : Inv s -> vw s = V ->
  wpV (cq_grad_barrier_s P o) (fun v => safe = true -> vec_is v (n_s P) (gbar_s P o B0 (v_mu V) (v_env V false))) s.
Proof.
  intros HI HV. its false. unfold cq_grad_barrier_s. sget. sget. cV.
  - sV ok_slack. srd. cbv zeta. sV ok_slack. srd. cbv zeta.
    assert (A : safe = true -> vec_is (pmsinvz (pdU P) (v_mu V) v0 (vset (length (pdU P)) 1) (pmul (pdL P) 1 (vmap2 Rdiv (vset (length (pdL P)) (- v_mu V)) v) 0 (vset (n_s P) 0))) (n_s P)
       (fun i => - v_mu V * scat (pdL P) (fun k => 1 / sl SL (v_env V false) k) i
                 + v_mu V * scat (pdU P) (fun k => 1 / sl SU (v_env V false) k) i)).
    { intros Hs. eapply vis_ext.
      - eapply pmsinvz_is; [exact (HQ0 Hs)|apply vset_is| |apply (ok_pos P HP SU)].
        eapply pmul_is; [apply vmap2_is; [apply vset_is|exact (HQ Hs)]|apply vset_is|apply (ok_pos P HP SL)].
      - intros i _. cbv beta. rewrite <- (scat_scal (pdL P) (- v_mu V)).
        rewrite (scat_ext (pdL P) (fun k => - v_mu V / sl SL (v_env V false) k) (fun k => - v_mu V * (1 / sl SL (v_env V false) k))) by (intros; unfold Rdiv; ring). ring. }
    destruct (Rlt_dec 0 (kappa_d o)) as [Hp|Hp].
    + sN ok_damp. rewrite HQ1. unfold dampv. new. cbn [CQProofs.VSpec]. intros Hs. destruct damp_s_is as [X1 X2].
      eapply vis_ext.
      * eapply pmul_is; [exact X2| |apply (ok_pos P HP SU)]. eapply pmul_is; [exact X1|exact (A Hs)|apply (ok_pos P HP SL)].
      * intros i _. cbv beta. unfold gbar_s, dampg_s. cbn [pos]. change (sl SL (Exs (e_s (v_env V false)))) with (sl SL (v_env V false)).
        change (sl SU (Exs (e_s (v_env V false)))) with (sl SU (v_env V false)). ring.
    + new. cbn [CQProofs.VSpec]. intros Hs. eapply vis_ext; [exact (A Hs)|]. intros i _. unfold gbar_s, dampg_s. cbn [pos].
      pose proof (ok_kappa _ Ho). replace (kappa_d o) with 0 by lra.
      change (sl SL (Exs (e_s (v_env V false)))) with (sl SL (v_env V false)).
      change (sl SU (Exs (e_s (v_env V false)))) with (sl SU (v_env V false)). ring.
  - intros v Hv. exact Hv.
Qed.
Lemma ok_gkx s V : Inv s -> vw s = V -> wpV (cq_grad_kappa_x P o) (fun v => vec_is v (n_x P) (dampg_x P o)) s.
Proof.
  intros HI HV. unfold cq_grad_kappa_x. cV; [|intros v Hv; exact Hv].
  destruct (Rlt_dec 0 (kappa_d o)) as [Hp|Hp].
  - sN ok_damp. rewrite HQ. unfold dampv. new. cbn [CQProofs.VSpec]. destruct damp_x_is as [X1 X2]. eapply vis_ext.
    + eapply pmul_is; [exact X2| |apply (ok_pos P HP XU)]. eapply pmul_is; [exact X1|apply vset_is|apply (ok_pos P HP XL)].
    + intros i _. cbv beta. unfold dampg_x. cbn [pos]. ring.
  - new. cbn [CQProofs.VSpec]. eapply vis_ext; [apply vset_is|]. intros i _. unfold dampg_x. pose proof (ok_kappa _ Ho). replace (kappa_d o) with 0 by lra. ring.
Qed.
Lemma ok_gks s V : Inv s -> vw s = V -> wpV (cq_grad_kappa_s P o) (fun v => vec_is v (n_s P) (dampg_s P o)) s.
Proof.
  intros HI HV. unfold cq_grad_kappa_s. cV; [|intros v Hv; exact Hv].
  destruct (Rlt_dec 0 (kappa_d o)) as [Hp|Hp].
  - sN ok_damp. rewrite HQ. unfold dampv. new. cbn [CQProofs.VSpec]. destruct damp_s_is as [X1 X2]. eapply vis_ext.
    + eapply pmul_is; [exact X2| |apply (ok_pos P HP SU)]. eapply pmul_is; [exact X1|apply vset_is|apply (ok_pos P HP SL)].
    + intros i _. cbv beta. unfold dampg_s. cbn [pos]. ring.
  - new. cbn [CQProofs.VSpec]. eapply vis_ext; [apply vset_is|]. intros i _. unfold dampg_s. pose proof (ok_kappa _ Ho). replace (kappa_d o) with 0 by lra. ring.
Qed.

(** gradient of the Lagrangian *)
Lemma ok_glx s V w : Inv s -> vw s = V ->
  wpV (cq_grad_lag_x P w) (fun v => mucond -> vec_is v (n_x P) (glag_x P mu0 (v_env V w))) s.
Proof.
  intros HI HV. its w. pose proof (dims s V w HI HV) as (D1 & D2 & D3 & D4 & D5 & D6 & D7 & D8).
  pose proof (fun x => gobj_mu s V x HI HV) as HG.
  unfold cq_grad_lag_x. do 5 sget. cV.
  - sV ok_gradf. srd. sV ok_jcTy. srd. sV ok_jdTy. srd. srd. srd. cbv zeta. new.
    cbn [CQProofs.VSpec]. intros Hm. rewrite (HG _ Hm) in HQ. subst v.
    eapply vis_ext.
    + eapply pmul_is; [apply vis_self; exact D6| |apply (ok_pos P HP XU)].
      eapply pmul_is; [apply vis_self; exact D5| |apply (ok_pos P HP XL)].
      apply mk_is'; [apply gobj_len|]. intros i Hi. rewrite (vis_el _ _ _ _ HQ0 Hi), (vis_el _ _ _ _ HQ1 Hi). reflexivity.
    + intros i _. cbv beta. unfold glag_x, el. cbn [e_x e_s e_yc e_yd e_zL e_zU e_vL e_vU pos]. ring.
  - intros v Hv. exact Hv.
Qed.
Lemma ok_gls s V w : Inv s -> vw s = V ->
  wpV (cq_grad_lag_s P w) (fun v => vec_is v (n_s P) (glag_s P (v_env V w))) s.
Proof.
  intros HI HV. its w. pose proof (dims s V w HI HV) as (D1 & D2 & D3 & D4 & D5 & D6 & D7 & D8).
  unfold cq_grad_lag_s. do 3 sget. cV; [|intros v Hv; exact Hv].
  srd. srd. srd. cbv zeta. new. cbn [CQProofs.VSpec].
  eapply vis_ext.
  - apply vmap2_is; [|apply vis_self; exact D4]. eapply pmul_is; [apply vis_self; exact D7| |apply (ok_pos P HP SL)].
    eapply pmul_is; [apply vis_self; exact D8|apply vset_is|apply (ok_pos P HP SU)].
  - intros i _. cbv beta. unfold glag_s. cbn [e_x e_s e_yc e_yd e_zL e_zU e_vL e_vU pos]. ring.
Qed.
Lemma ok_gldx s V : Inv s -> vw s = V ->
  wpV (cq_grad_lag_damp_x P o) (fun v => mucond -> vec_is v (n_x P) (fun i => glag_x P mu0 (v_env V false) i + v_mu V * dampg_x P o i)) s.
Proof.
  intros HI HV. its false. unfold cq_grad_lag_damp_x. destruct (Req_EM_T (kappa_d o) 0) as [E|E].
  - eapply wpV_conseq; [apply (ok_glx s V false HI HV)|]. intros v H7 Hm. eapply vis_ext; [exact (H7 Hm)|]. intros i _. unfold dampg_x. rewrite E. ring.
  - do 6 sget. cV; [|intros v Hv; exact Hv]. sV ok_glx. srd. sN ok_damp. rewrite HQ0. unfold dampv. new. cbn [CQProofs.VSpec]. intros Hm.
    destruct damp_x_is as [X1 X2]. eapply vis_ext.
    + eapply pmul_is; [exact X2| |apply (ok_pos P HP XU)]. eapply pmul_is; [exact X1|exact (HQ Hm)|apply (ok_pos P HP XL)].
    + intros i _. cbv beta. unfold dampg_x. cbn [pos]. change (glag_x P mu0 (v_env V false) i) with
        (glag_x P mu0 (Env (e_x (v_env V false)) [] (e_yc (v_env V false)) (e_yd (v_env V false)) (e_zL (v_env V false)) (e_zU (v_env V false)) [] []) i). ring.
Qed.
Lemma ok_glds s V : Inv s -> vw s = V ->
  wpV (cq_grad_lag_damp_s P o) (fun v => vec_is v (n_s P) (fun i => glag_s P (v_env V false) i + v_mu V * dampg_s P o i)) s.
Proof.
  intros HI HV. its false. unfold cq_grad_lag_damp_s. destruct (Req_EM_T (kappa_d o) 0) as [E|E].
  - eapply wpV_conseq; [apply (ok_gls s V false HI HV)|]. intros v H7. eapply vis_ext; [exact H7|]. intros i _. unfold dampg_s. rewrite E. ring.
  - do 4 sget. cV; [|intros v Hv; exact Hv]. sV ok_gls. srd. sN ok_damp. rewrite HQ0. unfold dampv. new. cbn [CQProofs.VSpec].
    destruct damp_s_is as [X1 X2]. eapply vis_ext.
    + eapply pmul_is; [exact X2| |apply (ok_pos P HP SU)]. eapply pmul_is; [exact X1|exact HQ|apply (ok_pos P HP SL)].
    + intros i _. cbv beta. unfold dampg_s. cbn [pos]. change (glag_s P (v_env V false) i) with
        (glag_s P (Env [] [] [] (e_yd (v_env V false)) [] [] (e_vL (v_env V false)) (e_vU (v_env V false))) i). ring.
Qed.

(** complementarity *)
Definition mulv (b : bd) (e : env) : vec := match b with XL => e_zL e | XU => e_zU e | SL => e_vL e | SU => e_vU e end.
Lemma mulv_el b e k : (mulv b e).[k] = mul b e k.
Proof. destruct b; reflexivity. Qed.
Lemma mulv_len b e : dims_ok P e -> length (mulv b e) = nb b.
Proof. intros (D1 & D2 & D3 & D4 & D5 & D6 & D7 & D8). destruct b; assumption. Qed.
Lemma ok_cmpl s V w b : Inv s -> vw s = V ->
  wpV (cq_compl P o w b) (fun v => safe = true -> vec_is v (nb b) (fun k => sl b (v_env V w) k * mul b (v_env V w) k)) s.
Proof.
  intros HI HV. pose proof (mult_hv s V w b HI HV) as Hm. fold (mulv b (v_env V w)) in Hm. pose proof (dims s V w HI HV) as D.
  unfold cq_compl. sV ok_slack. sget.
  eapply wpV_conseq; [eapply wp_qv2; [assumption|keys|intros ? H7; exact H7|]|].
  - srd. srd. new. cbn [CQProofs.VSpec]. intros Hs. eapply vis_ext; [apply vmap2_is; [exact (HQ Hs)|apply vis_self; apply mulv_len; exact D]|].
    intros k Hk. cbv beta. destruct (HQ Hs) as [_ E]. rewrite (E k Hk). reflexivity.
  - intros u H7 Hs. cbn [CQProofs.VSpec] in H7. eapply vis_ext; [exact (H7 Hs)|]. intros k Hk. cbv beta. destruct (HQ Hs) as [_ E]. rewrite (E k Hk), mulv_el. reflexivity.
Qed.
Lemma ok_relc s V b : Inv s -> vw s = V ->
  wpV (cq_relaxed_compl P o b) (fun v => safe = true -> vec_is v (nb b) (fun k => sl b (v_env V false) k * mul b (v_env V false) k - v_mu V)) s.
Proof.
  intros HI HV. pose proof (mult_hv s V false b HI HV) as Hm. fold (mulv b (v_env V false)) in Hm. pose proof (dims s V false HI HV) as D.
  unfold cq_relaxed_compl. sV ok_slack. sget. sget. cV.
  - sV ok_cmpl. srd. new. cbn [CQProofs.VSpec]. intros Hs. eapply vis_ext; [apply vmap_is; exact (HQ0 Hs)|].
    intros k Hk. cbv beta. destruct (HQ Hs) as [_ E]. rewrite (E k Hk), mulv_el. ring.
  - intros u H7 Hs. cbn [CQProofs.VSpec] in H7. eapply vis_ext; [exact (H7 Hs)|]. intros k Hk. cbv beta. destruct (HQ Hs) as [_ E]. rewrite (E k Hk), mulv_el. reflexivity.
Qed.

(** infeasibilities *)
Lemma ok_pinf s V w t : Inv s -> vw s = V -> wpN (cq_primal_inf P w t) (infeas P t (v_env V w)) s.
Proof.
  intros HI HV. its w. unfold cq_primal_inf. sget. sget. cN.
  - sV ok_c. sV ok_dms. srd. srd. done. cbn [CQProofs.NSpec]. intros t' E. apply nnum_inj in E. subst t'.
    unfold infeas. cbn [E2 e_x e_s]. rewrite HQ. apply norm2_is; [apply vis_self; apply CQSpec.ok_c; exact HP|exact HQ0].
  - intros r H7. cbn [CQProofs.NSpec] in H7. exact (H7 t eq_refl).
Qed.
Lemma env_eta e : e = Env (e_x e) (e_s e) (e_yc e) (e_yd e) (e_zL e) (e_zU e) (e_vL e) (e_vU e).
Proof. destruct e; reflexivity. Qed.
Lemma wp_tags8 {B} w (g : list nat -> M B) Q s V : vw s = V ->
  wp (g [i_x (v_it V w); i_s (v_it V w); i_yc (v_it V w); i_yd (v_it V w); i_zL (v_it V w); i_zU (v_it V w); i_vL (v_it V w); i_vU (v_it V w)]) Q s ->
  wp (bind (tags8 w) g) Q s.
Proof. intros <-. exact (fun H => H). Qed.
Lemma wp_tags6 {B} w (g : list nat -> M B) Q s V : vw s = V ->
  wp (g [i_x (v_it V w); i_s (v_it V w); i_zL (v_it V w); i_zU (v_it V w); i_vL (v_it V w); i_vU (v_it V w)]) Q s ->
  wp (bind (tags6 w) g) Q s.
Proof. intros <-. exact (fun H => H). Qed.
Lemma ok_dinf s V w t : Inv s -> vw s = V -> wpN (cq_dual_inf P w t) (fun r => mucond -> dinfeas P t mu0 (v_env V w) r) s.
Proof.
  intros HI HV. its w. unfold cq_dual_inf. eapply wp_tags8; [exact HV|]. cN.
  - sV ok_glx. sV ok_gls. srd. srd. done. cbn [CQProofs.NSpec]. rewrite <- env_eta. intros Hm t' E. apply nnum_inj in E. subst t'.
    unfold dinfeas. apply norm2_is; [exact (HQ Hm)|exact HQ0].
  - intros r H7 Hm. cbn [CQProofs.NSpec] in H7. rewrite <- env_eta in H7. exact (H7 Hm t eq_refl).
Qed.
Lemma ap_is (f : nat -> R) v n g : vec_is v n g -> vec_is (mk (dim v) (fun i => el v i * f i)) n (fun i => g i * f i).
Proof. intros H. apply mk_is'; [apply (vis_len _ _ _ H)|]. intros i Hi. rewrite (vis_el _ _ _ _ H Hi). reflexivity. Qed.
Lemma ok_undinf s V t : Inv s -> vw s = V -> wpN (cq_unscaled_dual_inf P t) (fun r => mucond -> un_dinfeas P t mu0 (v_env V false) r) s.
Proof.
  intros HI HV. its false. unfold cq_unscaled_dual_inf. eapply wp_tags8; [exact HV|]. cN.
  - sV ok_glx. srd. cbv zeta. sV ok_gls. srd. cbv zeta. done. cbn [CQProofs.NSpec]. rewrite <- env_eta. intros Hm t' E. apply nnum_inj in E. subst t'.
    unfold un_dinfeas. apply norm2_is.
    + unfold un_grad_obj, un_obj, ap_x. cbv zeta. destruct (Req_EM_T (1 / so P) 1) as [E|E].
      * eapply vis_ext; [apply ap_is; exact (HQ Hm)|]. intros i _. cbv beta. unfold Rdiv in *. rewrite Rmult_1_l in E. rewrite E. ring.
      * eapply vis_ext; [apply vmap_is; apply ap_is; exact (HQ Hm)|]. intros i _. cbv beta. unfold Rdiv. ring.
    + unfold un_obj, ap_d. destruct (Req_EM_T (1 / so P) 1) as [E|E].
      * eapply vis_ext; [apply ap_is; exact HQ0|]. intros i _. cbv beta. unfold Rdiv in *. rewrite Rmult_1_l in E. rewrite E. ring.
      * eapply vis_ext; [apply vmap_is; apply ap_is; exact HQ0|]. intros i _. cbv beta. unfold Rdiv. ring.
  - intros r H7 Hm. cbn [CQProofs.NSpec] in H7. rewrite <- env_eta in H7. exact (H7 Hm t eq_refl).
Qed.
Lemma compl_env6 t m e : compl P B0 t m (Env (e_x e) (e_s e) [] [] (e_zL e) (e_zU e) (e_vL e) (e_vU e)) = compl P B0 t m e.
Proof. reflexivity. Qed.
Lemma ok_compl s V w m t : Inv s -> vw s = V ->
  wpN (cq_complementarity P o w m t) (fun r => safe = true -> compl P B0 t m (v_env V w) r) s.
Proof.
  intros HI HV. its w. unfold cq_complementarity. eapply wp_tags6; [exact HV|]. cN.
  - sV ok_cmpl. sV ok_cmpl. sV ok_cmpl. sV ok_cmpl. srd. srd. srd. srd.
    destruct (Req_EM_T m 0) as [E|E].
    + done. cbn [CQProofs.NSpec]. intros Hs t' E'. apply nnum_inj in E'. subst t'. rewrite compl_env6. unfold compl, all_b. cbn [map].
      apply norml_is. repeat (apply Forall2_cons; [cbn [fst snd]; eapply vis_ext; [match goal with H : safe = true -> _ |- _ => exact (H Hs) end|]; intros k _; cbv beta; rewrite E; ring|]). apply Forall2_nil.
    + cbv zeta. done. cbn [CQProofs.NSpec]. intros Hs t' E'. apply nnum_inj in E'. subst t'. rewrite compl_env6. unfold compl, all_b. cbn [map].
      apply norml_is. repeat (apply Forall2_cons; [cbn [fst snd]; eapply vis_ext; [apply vmap_is; match goal with H : safe = true -> _ |- _ => exact (H Hs) end|]; intros k _; cbv beta; ring|]). apply Forall2_nil.
  - intros r H7 Hs. cbn [CQProofs.NSpec] in H7. exact (H7 Hs t eq_refl).
Qed.
Lemma ok_uncompl s V m t : Inv s -> vw s = V ->
  wpN (cq_unscaled_compl P o m t) (fun r => safe = true -> exists c, compl P B0 t m (v_env V false) c /\ r = Rabs (c / so P)) s.
Proof. intros HI HV. unfold cq_unscaled_compl. sN ok_compl. done. intros Hs. exists r. split; [exact (HQ Hs)|reflexivity]. Qed.

(** violation of the constraints of the NLP *)
Lemma ok_nlpcv s V t : Inv s -> vw s = V -> wpN (cq_nlp_cv P t) (fun r => safe = true -> nlpviol P B0 t (v_env V false) r) s.
Proof.
  intros HI HV. its false. destruct (iv_bnd _ _ _ _ _ _ s V SL HI HV) as [DL BL]. destruct (iv_bnd _ _ _ _ _ _ s V SU HI HV) as [DU BU].
  unfold cq_nlp_cv. sget. cN.
  - sV ok_c. srd. sV ok_d. srd. sget. sget. cbv zeta. done. cbn [CQProofs.NSpec]. intros Hs t' E'. apply nnum_inj in E'. subst t'.
    rewrite (BL Hs), (BU Hs). unfold nlpviol. cbn [Exs e_x]. subst v v0.
    eapply norm_ext; [|apply norml_is; apply Forall2_cons; [|apply Forall2_cons; [|apply Forall2_cons; [|apply Forall2_nil]]]].
    4:{ instantiate (1 := (nb SU, _)). cbn [fst snd]. apply vmap2_is; [|unfold dim, ptmul; rewrite mk_len; apply vset_is].
        eapply ptmul_is; [apply vis_self; apply CQSpec.ok_d; exact HP|apply (ok_pos P HP SU)|reflexivity|intros k _; reflexivity]. }
    3:{ instantiate (1 := (nb SL, _)). cbn [fst snd]. apply vmap2_is; [|unfold dim, ptmul; rewrite mk_len; apply vset_is].
        eapply ptmul_is; [apply vis_self; apply CQSpec.ok_d; exact HP|apply (ok_pos P HP SL)|reflexivity|intros k _; reflexivity]. }
    2:{ instantiate (1 := (n_c P, _)). cbn [fst snd]. apply vis_self; apply CQSpec.ok_c; exact HP. }
    cbv beta. repeat apply Forall2_cons; try apply Forall2_nil; cbn [fst snd]; (split; [reflexivity|]); intros k Hk; cbn [pos]; unfold el.
    + reflexivity.
    + rewrite Rmax_comm. do 2 f_equal. ring.
    + unfold Rmin, Rmax.
      set (a := 1 * (B0 SU).[k] + -1 * (fn_d P (e_x (v_env V false))).[nth k (pdU P) O]).
      replace ((fn_d P (e_x (v_env V false))).[nth k (pdU P) O] - (B0 SU).[k]) with (- a) by (unfold a; ring).
      destruct (Rle_dec a 0), (Rle_dec 0 (-a)); try (exfalso; lra); rewrite ?Rabs_Ropp; reflexivity.
  - intros r H7 Hs. exact (H7 Hs t eq_refl).
Qed.
Lemma ok_uncv s V w t : Inv s -> vw s = V -> wpN (cq_unscaled_nlp_cv P w t) (fun r => safe = true -> un_nlpviol P B0 t (v_env V w) r) s.
Proof.
  intros HI HV. its w. destruct (iv_bnd _ _ _ _ _ _ s V SL HI HV) as [DL BL]. destruct (iv_bnd _ _ _ _ _ _ s V SU HI HV) as [DU BU].
  unfold cq_unscaled_nlp_cv. sget. cN.
  - sV ok_unc. srd. sV ok_d. srd. sget. cbv zeta. sget. cbv zeta. done. cbn [CQProofs.NSpec]. intros Hs t' E'. apply nnum_inj in E'. subst t'.
    rewrite (BL Hs) in *. rewrite (BU Hs) in *. unfold un_nlpviol. cbn [Exs e_x]. subst v0.
    assert (A : forall b h, match b with SL | SU => True | _ => False end -> vec_is
       (if Nat.eqb (dim (B0 b)) 0 then [] else
        vmap2 h (ptmul (pos P b) 1 (un_d P (pmul (pos P b) 1 (B0 b) (-1) (fn_d P (e_x (v_env V w))))) 0 [])
          (vset (dim (ptmul (pos P b) 1 (un_d P (pmul (pos P b) 1 (B0 b) (-1) (fn_d P (e_x (v_env V w))))) 0 [])) 0)) (nb b)
       (fun k => h (((B0 b).[k] - (fn_d P (e_x (v_env V w))).[nth k (pos P b) O]) / sd P (nth k (pos P b) O)) 0)).
    { intros b h Hb. assert (DB : length (B0 b) = nb b) by (destruct b; [destruct Hb|destruct Hb|exact DL|exact DU]).
      assert (HO : forall i, In i (pos P b) -> (i < n_s P)%nat) by (intros i Hi; pose proof (ok_pos P HP b i Hi); destruct b; [destruct Hb|destruct Hb|assumption|assumption]).
      unfold dim at 1. rewrite DB. destruct (Nat.eqb_spec (nb b) 0) as [E0|E0]; [rewrite E0; split; [reflexivity|intros; lia]|].
      assert (U : vec_is (un_d P (pmul (pos P b) 1 (B0 b) (-1) (fn_d P (e_x (v_env V w))))) (n_s P)
         (fun i => (-1 * (fn_d P (e_x (v_env V w))).[i] + 1 * scat (pos P b) (fun k => (B0 b).[k]) i) / sd P i)).
      { assert (W : vec_is (pmul (pos P b) 1 (B0 b) (-1) (fn_d P (e_x (v_env V w)))) (n_s P) (fun i => -1 * (fn_d P (e_x (v_env V w))).[i] + 1 * scat (pos P b) (fun k => (B0 b).[k]) i)).
        { apply pmul_is; [apply vis_self; exact DB|apply vis_self; apply CQSpec.ok_d; exact HP|exact HO]. }
        unfold un_d. apply mk_is'; [apply (vis_len _ _ _ W)|]. intros i Hi. rewrite (vis_el _ _ _ _ W Hi). reflexivity. }
      eapply vis_ext; [apply vmap2_is; [|unfold dim, ptmul; rewrite mk_len; apply vset_is]; eapply ptmul_is; [exact U|exact HO|reflexivity|intros k _; unfold el; apply eq_trans with 0; [ring|]; instantiate (1 := fun _ => 0); ring]|].
      intros k Hk. cbv beta. rewrite scat_at by (exact Hk || apply (ok_nd P HP b)). f_equal. unfold Rdiv. ring. }
    eapply norm_ext; [|apply norml_is; apply Forall2_cons; [|apply Forall2_cons; [|apply Forall2_cons; [|apply Forall2_nil]]]].
    4:{ instantiate (1 := (nb SU, _)). cbn [fst snd]. apply (A SU Rmin Logic.I). }
    3:{ instantiate (1 := (nb SL, _)). cbn [fst snd]. apply (A SL Rmax Logic.I). }
    2:{ instantiate (1 := (n_c P, _)). cbn [fst snd]. exact HQ. }
    cbv beta. repeat apply Forall2_cons; try apply Forall2_nil; cbn [fst snd]; (split; [reflexivity|]); intros k Hk; cbn [pos].
    + reflexivity.
    + rewrite Rmax_comm. reflexivity.
    + set (a := ((B0 SU).[k] - (fn_d P (e_x (v_env V w))).[nth k (pdU P) O]) / sd P (nth k (pdU P) O)).
      replace (((fn_d P (e_x (v_env V w))).[nth k (pdU P) O] - (B0 SU).[k]) / sd P (nth k (pdU P) O)) with (- a) by (unfold a, Rdiv; ring).
      unfold Rmin, Rmax. destruct (Rle_dec a 0), (Rle_dec 0 (-a)); try (exfalso; lra); rewrite ?Rabs_Ropp; reflexivity.
  - intros r H7 Hs. exact (H7 Hs t eq_refl).
Qed.

(** violation of the original bounds *)
Lemma un_x_is x n : length x = n -> vec_is (un_x P x) n (fun i => x.[i] / sx P i).
Proof. intros <-. apply mk_is'; [reflexivity|]. intros. reflexivity. Qed.
Lemma viol_is b (h : R -> R -> R) al x l n g f : (forall a c, h a c = a + al * c) -> vec_is x n f -> (forall i, In i (pos P b) -> (i < n)%nat) ->
  vec_is l (nb b) g -> forall be,
  vec_is (vmap2 Rmax (vmap2 h (ptmul (pos P b) be x 0 []) l) (vset (dim (vmap2 h (ptmul (pos P b) be x 0 []) l)) 0)) (nb b)
    (fun k => Rmax 0 (be * f (nth k (pos P b) O) + al * g k)).
Proof.
  intros Hh Hx Hp Hl be.
  assert (A : vec_is (vmap2 h (ptmul (pos P b) be x 0 []) l) (nb b) (fun k => be * f (nth k (pos P b) O) + al * g k)).
  { eapply vis_ext; [apply vmap2_is; [eapply ptmul_is; [exact Hx|exact Hp|reflexivity|intros k _; unfold el; apply eq_trans with 0; [ring|]; instantiate (1 := fun _ => 0); ring]|exact Hl]|].
    intros k _. cbv beta. rewrite Hh. ring. }
  eapply vis_ext; [apply vmap2_is; [exact A|rewrite (vis_len _ _ _ A); apply vset_is]|]. intros k _. cbv beta. apply Rmax_comm.
Qed.
Lemma un_viol_L_is x : length x = n_x P -> vec_is (un_orig_viol_L P (un_x P x)) (nb XL) (oviolL P (Exs x)).
Proof.
  intros Hx. unfold un_orig_viol_L, oviolL. destruct (orig_xL P) as [l|] eqn:E; [|apply vset_is].
  destruct (Nat.eqb_spec (length (pxL P)) 0) as [E0|E0]; [apply (vis_ext _ _ (fun _ => 0)); [apply vset_is|intros i Hi; unfold CQSpec.nb in Hi; cbn in Hi; lia]|].
  cbv zeta. eapply vis_ext; [eapply (viol_is XL (fun a b => a + 1 * b) 1); [reflexivity|apply un_x_is; exact Hx|apply (ok_pos P HP XL)|apply vis_self; apply (ok_oxL P HP l E)]|].
  intros k _. cbn [Exs e_x pos]. f_equal. ring.
Qed.
Lemma un_viol_U_is x : length x = n_x P -> vec_is (un_orig_viol_U P (un_x P x)) (nb XU) (oviolU P (Exs x)).
Proof.
  intros Hx. unfold un_orig_viol_U, oviolU. destruct (orig_xU P) as [l|] eqn:E; [|apply vset_is].
  destruct (Nat.eqb_spec (length (pxU P)) 0) as [E0|E0]; [apply (vis_ext _ _ (fun _ => 0)); [apply vset_is|intros i Hi; unfold CQSpec.nb in Hi; cbn in Hi; lia]|].
  cbv zeta. eapply vis_ext; [eapply (viol_is XU (fun a b => a + -1 * b) (-1)); [reflexivity|apply un_x_is; exact Hx|apply (ok_pos P HP XU)|apply vis_self; apply (ok_oxU P HP l E)]|].
  intros k _. cbn [Exs e_x pos]. f_equal. ring.
Qed.
Lemma ap_x_LU_is b l : match b with XL | XU => True | _ => False end -> length l = nb b -> have_x_scaling P = true ->
  vec_is (ap_x_LU P (pos P b) l) (nb b) (fun k => l.[k] * sx P (nth k (pos P b) O)).
Proof.
  intros Hb Hl Hh. unfold ap_x_LU. rewrite Hh.
  assert (HO : forall i, In i (pos P b) -> (i < n_x P)%nat) by (intros i Hi; pose proof (ok_pos P HP b i Hi); destruct b; tauto).
  eapply vis_ext; [eapply ptmul_is; [apply ap_is; eapply pmul_is; [apply vis_self; exact Hl|apply vset_is|exact HO]|exact HO|reflexivity|intros k _; unfold el; apply eq_trans with 0; [ring|]; instantiate (1 := fun _ => 0); ring]|].
  intros k Hk. cbv beta. rewrite scat_at by (exact Hk || apply (ok_nd P HP b)). ring.
Qed.
Lemma viol_L_is x : length x = n_x P -> have_x_scaling P = true -> vec_is (orig_viol_L P x) (nb XL) (sviolL P (Exs x)).
Proof.
  intros Hx Hh. unfold orig_viol_L, sviolL. destruct (orig_xL P) as [l|] eqn:E; [|apply vset_is].
  destruct (Nat.eqb_spec (length (pxL P)) 0) as [E0|E0]; [apply (vis_ext _ _ (fun _ => 0)); [apply vset_is|intros i Hi; unfold CQSpec.nb in Hi; cbn in Hi; lia]|].
  cbv zeta. eapply vis_ext; [eapply (viol_is XL (fun a b => a + 1 * b) 1); [reflexivity|apply vis_self; exact Hx|apply (ok_pos P HP XL)|apply (ap_x_LU_is XL l Logic.I (ok_oxL P HP l E) Hh)]|].
  intros k _. cbn [Exs e_x pos]. f_equal. ring.
Qed.
Lemma viol_U_is x : length x = n_x P -> have_x_scaling P = true -> vec_is (orig_viol_U P x) (nb XU) (sviolU P (Exs x)).
Proof.
  intros Hx Hh. unfold orig_viol_U, sviolU. destruct (orig_xU P) as [l|] eqn:E; [|apply vset_is].
  destruct (Nat.eqb_spec (length (pxU P)) 0) as [E0|E0]; [apply (vis_ext _ _ (fun _ => 0)); [apply vset_is|intros i Hi; unfold CQSpec.nb in Hi; cbn in Hi; lia]|].
  cbv zeta. eapply vis_ext; [eapply (viol_is XU (fun a b => a + -1 * b) (-1)); [reflexivity|apply vis_self; exact Hx|apply (ok_pos P HP XU)|apply (ap_x_LU_is XU l Logic.I (ok_oxU P HP l E) Hh)]|].
  intros k _. cbn [Exs e_x pos]. f_equal. ring.
Qed.
Definition LUpost (V : view) (t : nat) (s : st) : Prop :=
  exists u a b, look (pca s) ([i_x (v_it V false)], []) = Some (t, u) /\ hv s t a /\ hv s u b /\
    vec_is a (nb XL) (oviolL P (v_env V false)) /\ vec_is b (nb XU) (oviolU P (v_env V false)).
Lemma pca_hit s V t u : Inv s -> vw s = V -> look (pca s) ([i_x (v_it V false)], []) = Some (t, u) -> LUpost V t s.
Proof.
  intros HI HV E. pose proof (it_x _ _ _ _ _ _ s V false HI HV) as Hx.
  destruct (I_p _ _ _ _ _ _ _ HI _ _ _ (look_In _ _ _ E)) as (vs & a & b & F & Ha & Hb & Hs). cbn [fst snd] in *.
  exists u, a, b. split; [exact E|]. split; [exact Ha|]. split; [exact Hb|].
  assert (Hk : Forall2 (hv s) [i_x (v_it V false)] [e_x (v_env V false)]) by keys.
  rewrite (hvs_fun _ _ _ _ F Hk) in Hs. exact Hs.
Qed.
Lemma ok_unoL s V : Inv s -> vw s = V -> wp (cq_un_orig_L P) (LUpost V) s.
Proof.
  intros HI HV. its false. pose proof (dims s V false HI HV) as (D1 & _).
  unfold cq_un_orig_L. sget. apply wp_gets. destruct (look (pca s) _) as [[t u]|] eqn:E.
  - apply wp_ret; [exact HI|]. apply (pca_hit s V t u HI HV E).
  - srd. cbv zeta.
    eapply wp_bindV; [apply (wp_newv _ _ _ _ _ _ _ (fun v => vec_is v (nb XL) (oviolL P (v_env V false)))); [exact HI|apply (un_viol_L_is _ D1)]|]. intros t a s1 HI1 HE Ha Qa. fwd HE.
    eapply wp_bindV; [apply (wp_newv _ _ _ _ _ _ _ (fun v => vec_is v (nb XU) (oviolU P (v_env V false)))); [exact HI1|apply (un_viol_U_is _ D1)]|]. intros u b s2 HI2 HE Hb Qb. fwd HE.
    unfold bind, ret. unfold CQProofs.wp.
    set (s3 := set_pca s2 _). assert (HI3 : Inv s3).
    { destruct HI2 as [? ? ? ? ? ? ? ? ? ?]. constructor; try assumption. intros k t' u' Hin. subst s3. cbn [pca set_pca firstn] in Hin.
      destruct Hin as [Hin|[]]. injection Hin as <- <- <-. exists [e_x (v_env V false)], a, b. cbn [fst snd].
      split; [keys|]. split; [exact Ha|]. split; [exact Hb|]. split; [exact Qa|exact Qb]. }
    split; [exact HI3|]. split; [apply ext_same; reflexivity|].
    exists u, a, b. split; [|split; [exact Ha|split; [exact Hb|split; [exact Qa|exact Qb]]]].
    subst s3. cbn [pca set_pca firstn look]. destruct (key_dec _ _) as [|N]; [reflexivity|]. exfalso. apply N. reflexivity.
Qed.
Definition optV (Q : vec -> Prop) (r : option nat) (s : st) : Prop := exists t v, r = Some t /\ hv s t v /\ Q v.
Lemma ok_unoU s V : Inv s -> vw s = V -> wp (cq_un_orig_U P) (optV (fun v => vec_is v (nb XU) (oviolU P (v_env V false)))) s.
Proof.
  intros HI HV. unfold cq_un_orig_U. eapply wp_bind; [apply (ok_unoL s V HI HV)|].
  intros t s1 HI1 HE (u & a & b & E & Ha & Hb & Qa & Qb). fwd HE. sget. apply wp_gets. rewrite E. done. exists u, b. auto.
Qed.
Definition optR (Q : R -> Prop) (r : option R) : Prop := exists v, r = Some v /\ Q v.
Lemma ok_unobv s V t : Inv s -> vw s = V ->
  wpN (cq_un_orig_bv P t) (optR (norm_is t [(nb XL, oviolL P (v_env V false)); (nb XU, oviolU P (v_env V false))])) s.
Proof.
  intros HI HV. its false. unfold cq_un_orig_bv. sget. unfold nget. apply wp_gets. destruct (look (nca s NC_unobv) _) as [r|] eqn:E.
  - done. exists r. split; [reflexivity|]. destruct (I_n _ _ _ _ _ _ _ HI _ _ _ (look_In _ _ _ E)) as (vs & F & Q). cbn [fst snd] in *.
    assert (Hk : Forall2 (hv s) [i_x (v_it V false)] [e_x (v_env V false)]) by keys.
    rewrite (hvs_fun _ _ _ _ F Hk) in Q. exact (Q t eq_refl).
  - eapply wp_bind; [apply (ok_unoL s V HI HV)|]. intros tl s1 HI1 HE (u & a & b & E1 & Ha & Hb & Qa & Qb). fwd HE.
    apply wp_gets. rewrite E1. cbn [fst snd]. srd. srd. cbv zeta. unfold bind, nadd, ret, CQProofs.wp.
    pose proof (norm2_is t _ _ _ _ _ _ Qa Qb) as N.
    split; [|split; [apply ext_same; reflexivity|exists (calc_norm2 t a b); split; [reflexivity|exact N]]].
    eapply inv_nadd; [exact HI1|cbn [fst]; keys|]. cbn [snd CQProofs.NSpec]. intros t' E'. apply nnum_inj in E'. subst t'. exact N.
Qed.
Lemma viol_same e : have_x_scaling P = false ->
  (forall k, oviolL P e k = sviolL P e k) /\ (forall k, oviolU P e k = sviolU P e k).
Proof.
  intros Hh. split; intros k; unfold oviolL, oviolU, sviolL, sviolU; [destruct (orig_xL P)|destruct (orig_xU P)]; try reflexivity;
    rewrite (ok_hx P HP Hh); f_equal; unfold Rdiv; rewrite Rinv_1; ring.
Qed.
Lemma ok_oL s V : Inv s -> vw s = V -> wpV (cq_orig_L P) (fun v => vec_is v (nb XL) (sviolL P (v_env V false))) s.
Proof.
  intros HI HV. its false. pose proof (dims s V false HI HV) as (D1 & _). unfold cq_orig_L. destruct (have_x_scaling P) eqn:Hh; cbn [negb].
  - sget. cV; [|intros v Hv; exact Hv]. srd. new. apply viol_L_is; assumption.
  - eapply wp_conseq; [apply (ok_unoL s V HI HV)|]. intros t s1 (u & a & b & E & Ha & Hb & Qa & Qb). exists a. split; [exact Ha|].
    eapply vis_ext; [exact Qa|]. intros k _. apply (viol_same _ Hh).
Qed.
Lemma ok_oU s V : Inv s -> vw s = V -> wp (cq_orig_U P) (optV (fun v => vec_is v (nb XU) (sviolU P (v_env V false)))) s.
Proof.
  intros HI HV. its false. pose proof (dims s V false HI HV) as (D1 & _). unfold cq_orig_U. destruct (have_x_scaling P) eqn:Hh; cbn [negb].
  - sget. eapply wp_bindV; [cV; [srd; new; apply viol_U_is; assumption|intros v Hv; exact Hv]|].
    intros t v s1 HI1 HE Ht Q. fwd HE. done. exists t, v. auto.
  - eapply wp_conseq; [apply (ok_unoU s V HI HV)|]. intros r s1 (t & v & E & Ht & Q). exists t, v. split; [exact E|]. split; [exact Ht|].
    eapply vis_ext; [exact Q|]. intros k _. apply (viol_same _ Hh).
Qed.
Lemma ok_obv s V t : Inv s -> vw s = V ->
  wpN (cq_orig_bv P t) (optR (norm_is t [(nb XL, sviolL P (v_env V false)); (nb XU, sviolU P (v_env V false))])) s.
Proof.
  intros HI HV. its false. unfold cq_orig_bv. destruct (have_x_scaling P) eqn:Hh; cbn [negb].
  - sget. unfold nget. apply wp_gets. destruct (look (nca s NC_obv) _) as [r|] eqn:E.
    + done. exists r. split; [reflexivity|]. destruct (I_n _ _ _ _ _ _ _ HI _ _ _ (look_In _ _ _ E)) as (vs & F & Q). cbn [fst snd] in *.
      assert (Hk : Forall2 (hv s) [i_x (v_it V false)] [e_x (v_env V false)]) by keys.
      rewrite (hvs_fun _ _ _ _ F Hk) in Q. exact (Q t eq_refl).
    + sV ok_oL. eapply wp_bind; [apply (ok_oU _ V ltac:(eassumption) HV)|]. intros r s1 HI1 HE (tu & b & -> & Hb & Qb). fwd HE.
      srd. srd. cbv zeta. unfold bind, nadd, ret, CQProofs.wp.
      pose proof (norm2_is t _ _ _ _ _ _ HQ Qb) as N.
      split; [|split; [apply ext_same; reflexivity|exists (calc_norm2 t v b); split; [reflexivity|exact N]]].
      eapply inv_nadd; [exact HI1|cbn [fst]; keys|]. cbn [snd CQProofs.NSpec]. intros t' E'. apply nnum_inj in E'. subst t'. exact N.
  - eapply wpN_conseq; [apply (ok_unobv s V t HI HV)|]. intros r (v & E & Q). exists v. split; [exact E|].
    eapply norm_ext; [|exact Q]. destruct (viol_same (v_env V false) Hh) as [A B].
    repeat apply Forall2_cons; try apply Forall2_nil; cbn [fst snd]; (split; [reflexivity|]); intros k _; [rewrite A|rewrite B]; reflexivity.
Qed.

(** centrality, averages, error measures *)
Lemma min_with_is r v n f (Pm : R -> Prop) (lb : R -> Prop) : vec_is v n f ->
  match min_with r v with
  | None => r = None /\ n = O
  | Some m => (r = Some m \/ exists i, (i < n)%nat /\ m = f i) /\ (forall a, r = Some a -> m <= a) /\ forall i, (i < n)%nat -> m <= f i
  end.
Proof.
  intros H. unfold min_with. rewrite (vis_len _ _ _ H). destruct (Nat.eqb_spec n 0) as [->|Hn].
  - destruct r; [|auto]. split; [left; reflexivity|]. split; [intros a E; injection E as ->; lra|intros; lia].
  - destruct (vmin_is _ _ _ H) as [H1 (i & Hi & H2)]; [lia|]. destruct r as [a|].
    + split; [|split].
      * unfold Rmin. destruct (Rle_dec a (vmin v)); [left; reflexivity|right; exists i; auto].
      * intros a' E. injection E as <-. apply Rmin_l.
      * intros j Hj. eapply Rle_trans; [apply Rmin_r|apply H1; exact Hj].
    + split; [right; exists i; auto|]. split; [discriminate|exact H1].
Qed.
Lemma centr_is e a b c d : vec_is a (nb XL) (fun k => sl XL e k * mul XL e k) -> vec_is b (nb XU) (fun k => sl XU e k * mul XU e k) ->
  vec_is c (nb SL) (fun k => sl SL e k * mul SL e k) -> vec_is d (nb SU) (fun k => sl SU e k * mul SU e k) ->
  centr P B0 e (calc_centrality a b c d).
Proof.
  intros Ha Hb Hc Hd. unfold calc_centrality.
  pose proof (min_with_is None _ _ _ (fun _ => True) (fun _ => True) Ha) as M1. set (r1 := min_with None a) in *. clearbody r1.
  pose proof (min_with_is r1 _ _ _ (fun _ => True) (fun _ => True) Hb) as M2. set (r2 := min_with r1 b) in *. clearbody r2.
  pose proof (min_with_is r2 _ _ _ (fun _ => True) (fun _ => True) Hc) as M3. set (r3 := min_with r2 c) in *. clearbody r3.
  pose proof (min_with_is r3 _ _ _ (fun _ => True) (fun _ => True) Hd) as M4. set (r4 := min_with r3 d) in *. clearbody r4.
  destruct r4 as [mn|].
  - right. destruct M4 as (W4 & L4 & B4).
    assert (G : (exists b0 k0, (k0 < nb b0)%nat /\ mn = sl b0 e k0 * mul b0 e k0) /\ forall b k, (k < nb b)%nat -> mn <= sl b e k * mul b e k).
    { split.
      - destruct W4 as [->|(i & Hi & E)]; [|exists SU, i; auto].
        destruct M3 as (W3 & L3 & B3). destruct W3 as [->|(i & Hi & E)]; [|exists SL, i; auto].
        destruct M2 as (W2 & L2 & B2). destruct W2 as [->|(i & Hi & E)]; [|exists XU, i; auto].
        destruct M1 as (W1 & L1 & B1). destruct W1 as [W1|(i & Hi & E)]; [discriminate|exists XL, i; auto].
      - assert (K3 : forall m3, r3 = Some m3 -> mn <= m3) by exact L4.
        intros b1 k Hk. destruct b1; [| | |apply B4; exact Hk].
        + destruct r3 as [m3|]; [|destruct M3 as [-> _]; destruct M2 as [-> _]; destruct M1 as [_ E]; lia].
          specialize (K3 m3 eq_refl). destruct M3 as (_ & L3 & B3).
          destruct r2 as [m2|]; [|destruct M2 as [-> _]; destruct M1 as [_ E]; lia]. specialize (L3 m2 eq_refl). destruct M2 as (_ & L2 & B2).
          destruct r1 as [m1|]; [|destruct M1 as [_ E]; lia]. specialize (L2 m1 eq_refl). destruct M1 as (_ & _ & B1). specialize (B1 k Hk). cbv beta in B1. lra.
        + destruct r3 as [m3|]; [|destruct M3 as [-> _]; destruct M2 as [_ E]; lia].
          specialize (K3 m3 eq_refl). destruct M3 as (_ & L3 & B3).
          destruct r2 as [m2|]; [|destruct M2 as [_ E]; lia]. specialize (L3 m2 eq_refl). destruct M2 as (_ & L2 & B2). specialize (B2 k Hk). cbv beta in B2. lra.
        + destruct r3 as [m3|]; [|destruct M3 as [_ E]; lia].
          specialize (K3 m3 eq_refl). destruct M3 as (_ & L3 & B3). specialize (B3 k Hk). cbv beta in B3. lra. }
    destruct G as [(b0 & k0 & G1 & G2) G3]. exists mn, b0, k0. split; [exact G1|]. split; [exact G2|]. split; [exact G3|].
    rewrite (asum_is _ _ _ Ha), (asum_is _ _ _ Hb), (asum_is _ _ _ Hc), (asum_is _ _ _ Hd).
    rewrite (vis_len _ _ _ Ha), (vis_len _ _ _ Hb), (vis_len _ _ _ Hc), (vis_len _ _ _ Hd). reflexivity.
  - left. destruct M4 as [-> E4]. destruct M3 as [-> E3]. destruct M2 as [-> E2']. destruct M1 as [_ E1]. split; [unfold ntot; lia|reflexivity].
Qed.
Lemma ok_centr s V : Inv s -> vw s = V -> wpN (cq_centrality P o) (fun r => safe = true -> centr P B0 (v_env V false) r) s.
Proof.
  intros HI HV. its false. unfold cq_centrality. eapply wp_tags6; [exact HV|]. cN; [|intros r H7; exact H7].
  sV ok_cmpl. sV ok_cmpl. sV ok_cmpl. sV ok_cmpl. srd. srd. srd. srd. done. cbn [CQProofs.NSpec]. intros Hs.
  apply (centr_is (v_env V false)); auto.
Qed.
Lemma vsum_is v : asum v = vsum v.
Proof. rewrite (asum_is v (length v) (fun i => v.[i])) by (apply vis_self; reflexivity). reflexivity. Qed.
Lemma ok_scaling s V : Inv s -> vw s = V -> wpN (cq_scaling o) (fun r => r = (s_d P o (v_env V false), s_c P o (v_env V false))) s.
Proof.
  intros HI HV. pose proof (dims s V false HI HV) as (D1 & D2 & D3 & D4 & D5 & D6 & D7 & D8). subst V.
  apply wp_ret; [exact HI|]. unfold error_scaling, s_d, s_c, zsum, scale_of, ntot. rewrite !vsum_is. cbv zeta. unfold dim.
  cbn [v_env vw v_ec envof e_x e_s e_yc e_yd e_zL e_zU e_vL e_vU] in *. rewrite D3, D4, D5, D6, D7, D8.
  f_equal; (match goal with |- (if ?b then _ else _) = (if ?c then _ else _) => replace b with c by (f_equal; lia); destruct c; [reflexivity|] end).
  replace (n_c P + n_s P + nb XL + nb XU + nb SL + nb SU)%nat with (n_c P + n_s P + (nb XL + nb XU + nb SL + nb SU))%nat by lia.
  do 2 f_equal. f_equal. ring.
Qed.
Lemma ok_nlperr s V : Inv s -> vw s = V -> wpN (cq_nlp_error P o) (fun r => safe = true -> mucond -> nlperr P o B0 mu0 (v_env V false) r) s.
Proof.
  intros HI HV. its false. unfold cq_nlp_error. eapply wp_tags8; [exact HV|]. cN; [|intros r H7; cbn [CQProofs.NSpec] in H7; rewrite <- env_eta in H7; exact H7].
  sN ok_scaling. sN ok_dinf. sN ok_nlpcv. sN ok_compl. done. cbn [CQProofs.NSpec]. rewrite <- env_eta. intros Hs Hm. subst r. cbn [fst snd].
  exists r0, r1, r2. auto.
Qed.
Lemma ok_unnlperr s V : Inv s -> vw s = V -> wpN (cq_unscaled_nlp_error P o) (fun r => safe = true -> mucond -> un_nlperr P o B0 mu0 (v_env V false) r) s.
Proof.
  intros HI HV. its false. unfold cq_unscaled_nlp_error. eapply wp_tags8; [exact HV|]. cN; [|intros r H7; cbn [CQProofs.NSpec] in H7; rewrite <- env_eta in H7; exact H7].
  sN ok_undinf. sN ok_uncv. sN ok_uncompl. done. cbn [CQProofs.NSpec]. rewrite <- env_eta. intros Hs Hm.
  destruct (HQ1 Hs) as (c & C1 & C2). exists r, r0, c. subst r1. auto.
Qed.
Lemma ok_barerr s V : Inv s -> vw s = V -> wpN (cq_barrier_error P o) (fun r => safe = true -> mucond ->
   exists a b c, dinfeas P NMax mu0 (v_env V false) a /\ infeas P NMax (v_env V false) b /\ compl P B0 NMax (v_mu V) (v_env V false) c /\
     r = Rmax (Rmax (a / s_d P o (v_env V false)) b) (c / s_c P o (v_env V false))) s.
Proof.
  intros HI HV. its false. unfold cq_barrier_error. eapply wp_tags8; [exact HV|]. sget.
  eapply wpN_conseq; [eapply wp_qn2; [assumption|keys|keys|intros r _; exact Logic.I|exact Logic.I|]|].
  - sN ok_scaling. sN ok_dinf. sN ok_pinf. sN ok_compl. done. cbn [CQProofs.NSpec]. rewrite <- env_eta. intros Hs Hm. subst r. cbn [fst snd].
    exists r0, r1, r2. auto.
  - intros r H7. cbn [CQProofs.NSpec] in H7. rewrite <- env_eta in H7. exact H7.
Qed.
Lemma wp_dims {B} w (g : nat * nat * nat -> M B) Q s V : Inv s -> vw s = V ->
  wp (g (n_x P + n_s P, n_c P + n_s P, ntot P)%nat) Q s -> wp (bind (CQModel.dims w) g) Q s.
Proof.
  intros HI HV H7. its w. pose proof (dims s V w HI HV) as (D1 & D2 & D3 & D4 & D5 & D6 & D7 & D8).
  replace (n_x P + n_s P, n_c P + n_s P, ntot P)%nat with (fst (CQModel.dims w s)) in H7; [exact H7|].
  unfold CQModel.dims, gets. cbn [fst]. cbv zeta. unfold dim, ntot. replace (itw w s) with (v_it V w) by (rewrite <- HV; destruct w; reflexivity).
  destruct Hit as [_ ->], Hit0 as [_ ->], Hit1 as [_ ->], Hit2 as [_ ->], Hit3 as [_ ->], Hit4 as [_ ->], Hit5 as [_ ->], Hit6 as [_ ->].
  rewrite D1, D2, D3, D4, D5, D6, D7, D8. reflexivity.
Qed.
Lemma ok_pde s V w m : Inv s -> vw s = V -> wpN (cq_pd_error P o w m) (fun r => safe = true -> mucond -> pderr P B0 mu0 m (v_env V w) r) s.
Proof.
  intros HI HV. its w. pose proof (dims s V w HI HV) as (D1 & D2 & D3 & D4 & D5 & D6 & D7 & D8).
  unfold cq_pd_error. eapply wp_tags8; [exact HV|]. apply (wp_dims w _ _ s V HI HV). cbv beta iota. cN; [|intros r H7; cbn [CQProofs.NSpec] in H7; rewrite <- env_eta in H7; exact H7].
  sN ok_dinf.
  eapply (wp_bindN _ _ _ _ _ _ _ _ (fun b => exists b', infeas P N1 (v_env V w) b' /\ b = if Nat.eqb (n_c P + n_s P) 0 then 0 else b' / INR (n_c P + n_s P))).
  { destruct (Nat.eqb (n_c P + n_s P) 0) eqn:En.
    - apply wp_ret; [assumption|]. exists 0. split; [|reflexivity]. apply Nat.eqb_eq in En. unfold infeas. replace (n_c P) with O by lia. replace (n_s P) with O by lia. cbn. ring.
    - sN ok_pinf. done. exists r0. auto. }
  intros b s1 HI1 HE (b' & B1 & B2). fwd HE.
  eapply (wp_bindN _ _ _ _ _ _ _ _ (fun c => safe = true -> exists c', compl P B0 N1 m (v_env V w) c' /\ c = if Nat.eqb (ntot P) 0 then 0 else c' / INR (ntot P))).
  { destruct (Nat.eqb (ntot P) 0) eqn:En.
    - apply wp_ret; [assumption|]. intros _. exists 0. split; [|reflexivity]. apply Nat.eqb_eq in En. unfold ntot in En. unfold compl, all_b. cbn [map].
      replace (nb XL) with O by lia. replace (nb XU) with O by lia. replace (nb SL) with O by lia. replace (nb SU) with O by lia. cbn. ring.
    - sN ok_compl. done. intros Hs. exists r0. auto. }
  intros c s2 HI2 HE Hc. fwd HE. done. cbn [CQProofs.NSpec]. rewrite <- env_eta. intros Hs Hm. destruct (Hc Hs) as (c' & C1 & C2).
  exists r, b', c'. subst b c. auto.
Qed.

(** fraction to the boundary *)
Definition frok (tau r : R) (n : nat) (q dq : nat -> R) : Prop :=
  0 <= r <= 1 /\ forall a, 0 <= a <= 1 -> (stepok tau a n q dq <-> a <= r).
Lemma ftb4 tau r1 r2 r3 r4 n1 n2 n3 n4 q1 q2 q3 q4 d1 d2 d3 d4 r : frok tau r1 n1 q1 d1 -> frok tau r2 n2 q2 d2 -> frok tau r3 n3 q3 d3 -> frok tau r4 n4 q4 d4 ->
  (forall a, a <= r <-> a <= r1 /\ a <= r2 /\ a <= r3 /\ a <= r4) ->
  ftb tau [(n1, q1, d1); (n2, q2, d2); (n3, q3, d3); (n4, q4, d4)] r.
Proof.
  intros [A1 F1] [A2 F2] [A3 F3] [A4 F4] Hr.
  assert (R0 : 0 <= r) by (apply Hr; repeat split; apply A1 || apply A2 || apply A3 || apply A4).
  assert (R1 : r <= r1 /\ r <= r2 /\ r <= r3 /\ r <= r4) by (apply Hr; lra).
  split; [lra|]. split.
  - intros n q dq k Hin Hk. destruct Hin as [E|[E|[E|[E|[]]]]]; injection E as <- <- <-.
    + apply F1; [lra|lra|exact Hk]. + apply F2; [lra|lra|exact Hk]. + apply F3; [lra|lra|exact Hk]. + apply F4; [lra|lra|exact Hk].
  - intros a Ha H7. apply Hr. repeat split.
    + apply F1; [exact Ha|]. intros k Hk. apply (H7 n1 q1 d1 k); [cbn; auto|exact Hk].
    + apply F2; [exact Ha|]. intros k Hk. apply (H7 n2 q2 d2 k); [cbn; auto|exact Hk].
    + apply F3; [exact Ha|]. intros k Hk. apply (H7 n3 q3 d3 k); [cbn; auto|exact Hk].
    + apply F4; [exact Ha|]. intros k Hk. apply (H7 n4 q4 d4 k); [cbn; auto 6|exact Hk].
Qed.
Lemma Rmin_iff a x y : a <= Rmin x y <-> a <= x /\ a <= y.
Proof. split; [intros H; pose proof (Rmin_l x y); pose proof (Rmin_r x y); lra|intros [H1 H2]; apply Rmin_glb; assumption]. Qed.
Lemma frok_is x d tau n q dq : vec_is x n q -> vec_is d n dq -> 0 <= tau -> (forall k, (k < n)%nat -> 0 <= q k) ->
  frok tau (frac_to_bound x d tau) n q dq.
Proof. intros. apply frac_is; assumption. Qed.
Lemma frok_if x d tau n q dq : vec_is x n q -> vec_is d n dq -> 0 <= tau -> (forall k, (k < n)%nat -> 0 <= q k) ->
  frok tau (if Nat.eqb (dim x) 0 then 1 else frac_to_bound x d tau) n q dq.
Proof.
  intros Hx Hd Ht Hq. rewrite (vis_len _ _ _ Hx). destruct (Nat.eqb_spec n 0) as [->|]; [|apply frok_is; assumption].
  split; [lra|]. intros a Ha. split; [lra|]. intros _ k Hk. lia.
Qed.
Lemma ptd_is b al d n : length d = n -> (forall i, In i (pos P b) -> (i < n)%nat) -> vec_is (ptmul (pos P b) al d 0 []) (nb b) (fun k => al * d.[nth k (pos P b) O]).
Proof.
  intros Hd Hp. eapply vis_ext; [eapply ptmul_is; [apply vis_self; exact Hd|exact Hp|reflexivity|intros k _; unfold el; apply eq_trans with 0; [ring|]; instantiate (1 := fun _ => 0); ring]|].
  intros k _. cbv beta. ring.
Qed.
Lemma int_pos e b k : interior P o B0 e -> (k < nb b)%nat -> 0 <= sl b e k.
Proof. intros H Hk. specialize (H b k Hk). pose proof (ok_eps _ Ho). lra. Qed.
Lemma pftb_is tau e a b c d dx ds : 0 <= tau -> interior P o B0 e -> length dx = n_x P -> length ds = n_s P ->
  vec_is a (nb XL) (sl XL e) -> vec_is b (nb XU) (sl XU e) -> vec_is c (nb SL) (sl SL e) -> vec_is d (nb SU) (sl SU e) ->
  pftb P B0 tau e dx ds (Rmin (calc_frac a (pxL P) b (pxU P) dx tau) (calc_frac c (pdL P) d (pdU P) ds tau)).
Proof.
  intros Ht HIn Hx Hsd Ha Hb Hc Hd. unfold pftb, all_b, calc_frac. cbn [map]. cbv zeta.
  eapply ftb4; [apply frok_if|apply frok_if|apply frok_if|apply frok_if|]; try eassumption; try (intros k Hk; apply int_pos; assumption).
  - eapply vis_ext; [apply (ptd_is XL 1 dx (n_x P) Hx); apply (ok_pos P HP XL)|]. intros k _. unfold dsl. cbn [pos]. ring.
  - eapply vis_ext; [apply (ptd_is XU (-1) dx (n_x P) Hx); apply (ok_pos P HP XU)|]. intros k _. unfold dsl. cbn [pos]. ring.
  - eapply vis_ext; [apply (ptd_is SL 1 ds (n_s P) Hsd); apply (ok_pos P HP SL)|]. intros k _. unfold dsl. cbn [pos]. ring.
  - eapply vis_ext; [apply (ptd_is SU (-1) ds (n_s P) Hsd); apply (ok_pos P HP SU)|]. intros k _. unfold dsl. cbn [pos]. ring.
  - intros z. rewrite !Rmin_iff. tauto.
Qed.
Lemma ok_pfrac s V tau t1 t2 dx ds : Inv s -> vw s = V -> hv s t1 dx -> hv s t2 ds -> length dx = n_x P -> length ds = n_s P -> 0 <= tau ->
  wpN (cq_primal_frac P o tau t1 t2) (fun r => safe = true -> pftb P B0 tau (v_env V false) dx ds r) s.
Proof.
  intros HI HV H1 H2 Dx Ds Ht. its false. destruct (iv_env _ _ _ _ _ _ s V false HI HV) as [_ HIn]. unfold cq_primal_frac. sget. sget. cN.
  - sV ok_slack. sV ok_slack. sV ok_slack. sV ok_slack. do 6 srd. done. cbn [CQProofs.NSpec]. intros Hs _.
    change (pftb P B0 tau (v_env V false) dx ds (Rmin (calc_frac v (pxL P) v0 (pxU P) dx tau) (calc_frac v1 (pdL P) v2 (pdU P) ds tau))).
    apply pftb_is; auto.
  - intros r H7 Hs. exact (H7 Hs Ht).
Qed.
Definition dvec (d1 d2 d3 d4 : vec) (b : bd) : vec := match b with XL => d1 | XU => d2 | SL => d3 | SU => d4 end.
Lemma ok_dfrac s V tau t1 t2 t3 t4 d1 d2 d3 d4 : Inv s -> vw s = V -> hv s t1 d1 -> hv s t2 d2 -> hv s t3 d3 -> hv s t4 d4 ->
  length d1 = nb XL -> length d2 = nb XU -> length d3 = nb SL -> length d4 = nb SU -> 0 <= tau ->
  wpN (cq_dual_frac tau t1 t2 t3 t4) (fun r => (forall b k, (k < nb b)%nat -> 0 <= mul b (v_env V false) k) ->
     dftb P tau (v_env V false) (dvec d1 d2 d3 d4) r) s.
Proof.
  intros HI HV H1 H2 H3 H4 L1 L2 L3 L4 Ht. its false. pose proof (dims s V false HI HV) as (D1 & D2 & D3 & D4 & D5 & D6 & D7 & D8).
  unfold cq_dual_frac. apply wp_gets. replace (curr s) with (v_it V false) by (rewrite <- HV; reflexivity). cN.
  - unfold cq_unc_dual_frac. apply wp_ret; [exact HI|]. replace (curr s) with (v_it V false) by (rewrite <- HV; reflexivity). cbv zeta.
    destruct H1 as [_ ->], H2 as [_ ->], H3 as [_ ->], H4 as [_ ->], Hit3 as [_ ->], Hit4 as [_ ->], Hit5 as [_ ->], Hit6 as [_ ->].
    cbn [CQProofs.NSpec]. intros _ Hp. unfold dftb, all_b. cbn [map].
    assert (Hp' : forall b k, (k < nb b)%nat -> 0 <= mul b (v_env V false) k) by exact Hp.
    eapply ftb4; [apply frok_is|apply frok_is|apply frok_is|apply frok_is|]; try exact Ht; try (apply vis_self; assumption); try (intros k Hk; apply (Hp _ k Hk)).
    intros z. rewrite !Rmin_iff. tauto.
  - intros r H7 Hp. exact (H7 Ht Hp).
Qed.
Lemma ok_sfrac s V tau t1 t2 t3 t4 d1 d2 d3 d4 : Inv s -> vw s = V -> hv s t1 d1 -> hv s t2 d2 -> hv s t3 d3 -> hv s t4 d4 ->
  length d1 = nb XL -> length d2 = nb XU -> length d3 = nb SL -> length d4 = nb SU -> 0 <= tau ->
  wpN (cq_unc_slack_frac P o tau t1 t2 t3 t4) (fun r => safe = true -> sftb P B0 tau (v_env V false) (dvec d1 d2 d3 d4) r) s.
Proof.
  intros HI HV H1 H2 H3 H4 L1 L2 L3 L4 Ht. destruct (iv_env _ _ _ _ _ _ s V false HI HV) as [_ HIn].
  unfold cq_unc_slack_frac. sV ok_slack. sV ok_slack. sV ok_slack. sV ok_slack. do 8 srd. done. intros Hs. unfold sftb, all_b. cbn [map].
  eapply ftb4; [apply frok_is|apply frok_is|apply frok_is|apply frok_is|]; try exact Ht; try (apply vis_self; assumption);
    try (match goal with H : safe = true -> vec_is _ _ _ |- _ => exact (H Hs) end); try (intros k Hk; apply int_pos; auto).
  intros z. rewrite !Rmin_iff. tauto.
Qed.

(** Sigma, average complementarity, directional derivative *)
Lemma ok_sigx s V : Inv s -> vw s = V -> wpV (cq_sigma_x P o) (fun v => safe = true -> vec_is v (n_x P) (sigma_x P B0 (v_env V false))) s.
Proof.
  intros HI HV. its false. pose proof (dims s V false HI HV) as (D1 & D2 & D3 & D4 & D5 & D6 & D7 & D8).
  unfold cq_sigma_x. sget. sget. sget. cV; [|intros v Hv; exact Hv]. sV ok_slack. srd. sV ok_slack. srd. srd. srd. new.
  cbn [CQProofs.VSpec]. intros Hs. eapply vis_ext.
  - eapply pmsinvz_is; [exact (HQ0 Hs)|apply vis_self; exact D6| |apply (ok_pos P HP XU)].
    eapply pmsinvz_is; [exact (HQ Hs)|apply vis_self; exact D5|apply vset_is|apply (ok_pos P HP XL)].
  - intros i _. cbv beta. unfold sigma_x. cbn [pos].
    change (0 + 1 * scat (pxL P) (fun k => mul XL (v_env V false) k / sl XL (v_env V false) k) i + 1 * scat (pxU P) (fun k => mul XU (v_env V false) k / sl XU (v_env V false) k) i =
      scat (pxL P) (fun k => mul XL (v_env V false) k / sl XL (v_env V false) k) i + scat (pxU P) (fun k => mul XU (v_env V false) k / sl XU (v_env V false) k) i). ring.
Qed.
Lemma ok_sigs s V : Inv s -> vw s = V -> wpV (cq_sigma_s P o) (fun v => safe = true -> vec_is v (n_s P) (sigma_s P B0 (v_env V false))) s.
Proof.
  intros HI HV. its false. pose proof (dims s V false HI HV) as (D1 & D2 & D3 & D4 & D5 & D6 & D7 & D8).
  unfold cq_sigma_s. sget. sget. sget. cV; [|intros v Hv; exact Hv]. sV ok_slack. srd. sV ok_slack. srd. srd. srd. new.
  cbn [CQProofs.VSpec]. intros Hs. eapply vis_ext.
  - eapply pmsinvz_is; [exact (HQ0 Hs)|apply vis_self; exact D8| |apply (ok_pos P HP SU)].
    eapply pmsinvz_is; [exact (HQ Hs)|apply vis_self; exact D7|apply vset_is|apply (ok_pos P HP SL)].
  - intros i _. cbv beta. unfold sigma_s. cbn [pos].
    change (0 + 1 * scat (pdL P) (fun k => mul SL (v_env V false) k / sl SL (v_env V false) k) i + 1 * scat (pdU P) (fun k => mul SU (v_env V false) k / sl SU (v_env V false) k) i =
      scat (pdL P) (fun k => mul SL (v_env V false) k / sl SL (v_env V false) k) i + scat (pdU P) (fun k => mul SU (v_env V false) k / sl SU (v_env V false) k) i). ring.
Qed.
Lemma wp_itw {B} w (g : iter -> M B) Q s V : vw s = V -> wp (g (v_it V w)) Q s -> wp (bind (gets (itw w)) g) Q s.
Proof. intros <-. destruct w; exact (fun H => H). Qed.
Lemma ok_avrg s V w : Inv s -> vw s = V -> wpN (cq_avrg_compl P o w) (fun r => safe = true -> r = avrg P B0 (v_env V w)) s.
Proof.
  intros HI HV. its w. pose proof (dims s V w HI HV) as (D1 & D2 & D3 & D4 & D5 & D6 & D7 & D8).
  unfold cq_avrg_compl. eapply wp_tags6; [exact HV|]. cN; [|intros r H7; exact H7].
  sV ok_slack. sV ok_slack. sV ok_slack. sV ok_slack. do 4 srd. eapply wp_itw; [exact HV|]. do 4 srd. cbv zeta. done.
  cbn [CQProofs.NSpec]. intros Hs. unfold dim. rewrite D5, D6, D7, D8. fold (ntot P).
  change (avrg P B0 (Env (e_x (v_env V w)) (e_s (v_env V w)) [] [] (e_zL (v_env V w)) (e_zU (v_env V w)) (e_vL (v_env V w)) (e_vU (v_env V w)))) with (avrg P B0 (v_env V w)).
  unfold avrg. change (nb XL + nb XU + nb SL + nb SU)%nat with (ntot P). destruct (Nat.eqb (ntot P) 0); [reflexivity|].
  rewrite (dot_is _ _ _ _ _ (vis_self _ _ D5) (HQ Hs)), (dot_is _ _ _ _ _ (vis_self _ _ D6) (HQ0 Hs)),
    (dot_is _ _ _ _ _ (vis_self _ _ D7) (HQ1 Hs)), (dot_is _ _ _ _ _ (vis_self _ _ D8) (HQ2 Hs)). reflexivity.
Qed.
Lemma ok_gbtd s V : Inv s -> vw s = V -> wpN (cq_grad_barr_delta P o) (fun r => safe = true ->
  r = gbtd P o B0 (v_mu V) (v_env V false) (e_x (v_ed V)) (e_s (v_ed V))) s.
Proof.
  intros HI HV. its false. pose proof (it_dx _ _ _ _ _ _ s V HI HV) as Hdx. pose proof (it_ds _ _ _ _ _ _ s V HI HV) as Hds.
  assert (Dd : length (e_x (v_ed V)) = n_x P /\ length (e_s (v_ed V)) = n_s P).
  { destruct (I_d _ _ _ _ _ _ _ HI) as [_ (A & B & _)]. subst V. split; assumption. }
  destruct Dd as [Dx Ds].
  unfold cq_grad_barr_delta. apply wp_gets. apply wp_gets. replace (curr s) with (v_it V false) by (rewrite <- HV; reflexivity).
  replace (delta s) with (v_d V) by (rewrite <- HV; reflexivity). sget. cN.
  - sV ok_gbx. sV ok_gbs. do 4 srd. done. cbn [CQProofs.NSpec]. intros Hs.
    rewrite (dot_is _ _ _ _ _ (HQ Hs) (vis_self _ _ Dx)), (dot_is _ _ _ _ _ (HQ0 Hs) (vis_self _ _ Ds)). reflexivity.
  - intros r H7. exact H7.
Qed.

(** * The invariant holds in every history *)
Lemma wp_inv {A} (m : M A) Q s : wp m Q s -> Inv (after m s).
Proof. unfold CQProofs.wp, after. destruct (m s). intros (H & _). exact H. Qed.
Lemma wp_ext {A} (m : M A) Q s : wp m Q s -> ext s (after m s).
Proof. unfold CQProofs.wp, after. destruct (m s). intros (_ & H & _). exact H. Qed.
Lemma ok_reset s : Inv s -> wp reset_adjusted (fun _ _ => True) s.
Proof.
  intros HI. unfold reset_adjusted. apply wp_put; [exact HI|]. intros H1 _. apply wp_put; [exact H1|]. intros H2 _. apply wp_put; [exact H2|]. intros H3 _.
  split; [apply inv_nadj; exact H3|]. split; [apply ext_same; reflexivity|exact Logic.I].
Qed.
Lemma ask_inv s q : Inv s -> asks_ok P s q -> Inv (ask P o q s) /\ ext s (ask P o q s).
Proof.
  intros HI Hq.
  assert (G : forall A (m : M A) Q, wp m Q s -> Inv (after m s) /\ ext s (after m s)).
  { intros A m Q H. split; [eapply wp_inv|eapply wp_ext]; exact H. }
  assert (HL : forall t n, (t < length (store s))%nat /\ length (val s t) = n -> hv s t (val s t) /\ length (val s t) = n).
  { intros t n [H1 H2]. split; [split; [exact H1|reflexivity]|exact H2]. }
  destruct q; cbn [ask]; cbn [asks_ok] in Hq; eapply G.
  - apply (ok_slack s _ w b HI eq_refl).
  - apply (ok_f s _ w HI eq_refl).
  - apply (ok_unf s _ w HI eq_refl).
  - apply (ok_gradf s _ w HI eq_refl).
  - apply (ok_bar s _ w HI eq_refl).
  - apply (ok_gbx s _ HI eq_refl).
  - apply (ok_gbs s _ HI eq_refl).
  - apply (ok_gkx s _ HI eq_refl).
  - apply (ok_gks s _ HI eq_refl).
  - apply (ok_c s _ w HI eq_refl).
  - apply (ok_unc s _ w HI eq_refl).
  - apply (ok_d s _ w HI eq_refl).
  - apply (ok_und s _ HI eq_refl).
  - apply (ok_dms s _ w HI eq_refl).
  - apply (ok_jc s _ w HI eq_refl).
  - apply (ok_jd s _ w HI eq_refl).
  - destruct (HL _ _ Hq). eapply ok_jcv; eauto.
  - destruct (HL _ _ Hq). eapply ok_jdv; eauto.
  - destruct (HL _ _ Hq). eapply ok_jcT; eauto.
  - destruct (HL _ _ Hq). eapply ok_jdT; eauto.
  - apply (ok_nlpcv s _ t HI eq_refl).
  - apply (ok_uncv s _ w t HI eq_refl).
  - apply (ok_unoL s _ HI eq_refl).
  - apply (ok_unoU s _ HI eq_refl).
  - apply (ok_unobv s _ t HI eq_refl).
  - apply (ok_oL s _ HI eq_refl).
  - apply (ok_oU s _ HI eq_refl).
  - apply (ok_obv s _ t HI eq_refl).
  - apply (ok_h s _ HI eq_refl).
  - apply (ok_glx s _ w HI eq_refl).
  - apply (ok_gls s _ w HI eq_refl).
  - apply (ok_gldx s _ HI eq_refl).
  - apply (ok_glds s _ HI eq_refl).
  - apply (ok_cmpl s _ w b HI eq_refl).
  - apply (ok_relc s _ b HI eq_refl).
  - apply (ok_pinf s _ w t HI eq_refl).
  - apply (ok_dinf s _ w t HI eq_refl).
  - apply (ok_undinf s _ t HI eq_refl).
  - apply (ok_compl s _ w m t HI eq_refl).
  - apply (ok_uncompl s _ m t HI eq_refl).
  - apply (ok_centr s _ HI eq_refl).
  - apply (ok_nlperr s _ HI eq_refl).
  - apply (ok_unnlperr s _ HI eq_refl).
  - apply (ok_barerr s _ HI eq_refl).
  - apply (ok_pde s _ w m HI eq_refl).
  - destruct Hq as (Ht & H1 & H2). destruct (HL _ _ H1), (HL _ _ H2). eapply ok_pfrac; eauto. apply Ht.
  - destruct Hq as (Ht & H1 & H2 & H3 & H4). destruct (HL _ _ H1), (HL _ _ H2), (HL _ _ H3), (HL _ _ H4). eapply ok_dfrac; eauto. apply Ht.
  - destruct Hq as (Ht & H1 & H2 & H3 & H4). destruct (HL _ _ H1), (HL _ _ H2), (HL _ _ H3), (HL _ _ H4). eapply ok_sfrac; eauto. apply Ht.
  - apply (ok_sigx s _ HI eq_refl).
  - apply (ok_sigs s _ HI eq_refl).
  - apply (ok_avrg s _ w HI eq_refl).
  - apply (ok_gbtd s _ HI eq_refl).
  - apply (ok_reset s HI).
Qed.
Lemma step_inv s s' : Inv s -> step P o safe fixmu B0 s s' -> Inv s'.
Proof.
  intros HI HS. destruct HS as [v|i Hi|i Hi Hd| |m Hm|b Hb Hl|f g h p|q Hq].
  - apply inv_store. exact HI.
  - destruct HI as [? ? ? ? ? ? ? ? ? ?]. constructor; assumption.
  - destruct HI as [? ? ? ? ? ? ? ? ? ?]. constructor; try assumption. split; assumption.
  - destruct HI as [? ? ? ? ? ? ? ? ? ?]. constructor; assumption.
  - destruct HI as [? ? ? ? ? ? ? ? ? ?]. constructor; try assumption. intros E. congruence.
  - destruct HI as [? ? ? ? ? ? ? ? ? ?]. constructor; try assumption. intros b'. split; [apply Hl|]. intros E. congruence.
  - destruct HI as [? ? ? ? ? ? ? ? ? ?]. constructor; try assumption.
    + intros c k r Hin. cbn [nca] in Hin. apply filter_In in Hin. apply I_n. apply Hin.
    + intros c k r Hin. cbn [vca] in Hin. apply filter_In in Hin. apply I_v. apply Hin.
    + intros c k r Hin. cbn [mca] in Hin. apply filter_In in Hin. apply I_m. apply Hin.
    + intros k t u Hin. cbn [pca] in Hin. apply filter_In in Hin. apply I_p. apply Hin.
  - apply ask_inv; assumption.
Qed.
Lemma reach_inv s : reach P o safe fixmu B0 mu0 s -> Inv s.
Proof.
  induction 1 as [s H|s s' _ IH HS]; [|eapply step_inv; eauto].
  destruct H as (H1 & H2 & H3 & H4 & H5 & H6 & H7 & H8 & H9 & H10 & H11). constructor; try assumption.
  - intros c k r Hin. rewrite H1 in Hin. destruct Hin.
  - intros c k r Hin. rewrite H2 in Hin. destruct Hin.
  - intros c k r Hin. rewrite H3 in Hin. destruct Hin.
  - intros k t u Hin. rewrite H4 in Hin. destruct Hin.
  - intros d E. rewrite H5 in E. discriminate.
  - split; assumption.
  - intros b. destruct (H6 b) as [E L]. rewrite E. split; [exact L|reflexivity].
  - intros _. exact H7.
Qed.
(** from a triple to the value of the answer *)
Lemma use_N {A} (m : M A) Q s : wpN m Q s -> Q (fst (m s)).
Proof. unfold CQProofs.wpN, CQProofs.wp. destruct (m s). intros (_ & _ & H). exact H. Qed.
Lemma use_V (m : M nat) Q s : wpV m Q s -> Q (val (snd (m s)) (fst (m s))).
Proof. unfold CQProofs.wpV, CQProofs.wp. destruct (m s). intros (_ & _ & v & [_ H] & HQ). cbn [fst snd]. rewrite H. exact HQ. Qed.
End Funs.
