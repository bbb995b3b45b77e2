(** The questions asked by AcceptTrialPoint. *)
From Coq Require Import Reals List Arith Bool Lra Lia ZArith.
From Verif Require Import CQModel CQSpec CQVec CQProofs CQFuns CQSlack CQAccModel.
Import ListNotations.
Open Scope R_scope.
Local Notation "v .[ i ]" := (nth i v 0) (at level 1, format "v .[ i ]").

Lemma qv_frame c1 c2 k comp s c : (forall s, vca (snd (comp s)) = vca s) -> c <> c1 -> vca (snd (qv c1 c2 k comp s)) c = vca s c.
Proof.
  intros Hc Hn. unfold qv, qv2, vget, bind, gets. cbv beta iota.
  destruct (look (vca s c1) k) as [t|]; [reflexivity|].
  assert (G : forall m : M nat, (forall s, vca (snd (m s)) = vca s) ->
    vca (snd (let (a, s') := m s in let (_, s'0) := vadd c1 k a s' in ret a s'0)) c = vca s c).
  { intros m Hm. specialize (Hm s). destruct (m s) as [a s1]. cbn [snd] in Hm. unfold vadd, ret. cbn [snd vca set_vca].
    destruct (vcid_dec c c1) as [E|_]; [contradiction|]. rewrite Hm. reflexivity. }
  destruct c2 as [c2|]; unfold ret at 1.
  - destruct (look (vca s c2) k) as [v|]; [apply (G (ret v)); reflexivity|apply G; exact Hc].
  - apply G. exact Hc.
Qed.

Definition skey (b : bd) (s : st) : key := ([prim b (trial s)], []).
Definition scomp P o b (t : nat) : M nat :=
  do x <- rd t; do xb <- gets (fun s => bnd s b);
  do tm <- tg false (mult b); do m <- rd tm; do amu <- cmu;
  let r := safe_slack o amu (calc_slack P b x xb) xb m in
  do u <- put_nadj b (snd r); newv (fst r).
Lemma slack_form P o b s :
  cq_slack P o true b s = qv (VC_slack true b) (Some (VC_slack false b)) (skey b s) (scomp P o b (prim b (trial s))) (set_nadj s b 0).
Proof. reflexivity. Qed.
Lemma scomp_frame P o b t s : vca (snd (scomp P o b t s)) = vca s.
Proof. reflexivity. Qed.

Lemma bind_gets {A C} (g : st -> A) (f : A -> M C) s : bind (gets g) f s = f (g s) s.
Proof. reflexivity. Qed.
Lemma bind_run {A C} (m : M A) (f : A -> M C) s a s1 : m s = (a, s1) -> bind m f s = f a s1.
Proof. intros E. unfold bind. rewrite E. reflexivity. Qed.
Section Acc.
Variables (P : nlp) (o : opts) (safe fixmu : bool) (B0 : bd -> vec) (mu0 : R).
Hypothesis HP : nlp_ok P.
Hypothesis Ho : opts_ok o.
Local Notation Inv := (Inv P o safe fixmu B0 mu0).

Lemma slack_q s b : Inv s ->
  let r := cq_slack P o true b s in
  Inv (snd r) /\ ext s (snd r) /\ (fst r < length (store (snd r)))%nat /\
  (forall b', b' <> b -> vca (snd r) (VC_slack true b') = vca s (VC_slack true b')) /\
  look (vca (snd r) (VC_slack true b)) (skey b s) = Some (fst r).
Proof.
  intros HI r. pose proof (ok_slack P o safe fixmu B0 mu0 HP Ho s _ true b HI eq_refl) as H.
  unfold wpV, wp in H. fold r in H. rewrite (surjective_pairing r) in H. destruct H as (H1 & H2 & v & [H3 _] & _).
  split; [exact H1|]. split; [exact H2|]. split; [exact H3|]. split.
  - intros b' Hb. unfold r. rewrite slack_form, qv_frame; [reflexivity|apply scomp_frame|congruence].
  - unfold r. rewrite slack_form. apply qv_again. cbn. lia.
Qed.
Lemma slack_hit s b t : look (vca s (VC_slack true b)) (skey b s) = Some t -> cq_slack P o true b s = (t, set_nadj s b 0).
Proof. intros H. rewrite slack_form. apply qv_hit. exact H. Qed.

Definition total (s : st) : Z := (nadj s XL + nadj s XU + nadj s SL + nadj s SU)%Z.
Lemma adjust_is s : Inv s -> (0 < total s)%Z ->
  let s' := snd (adjust_bounds P o s) in
  curr s' = curr s /\ trial s' = trial s /\ mu s' = mu s /\ envof s' (curr s) = envof s (curr s) /\ envof s' (trial s) = envof s (trial s) /\
  (forall b, exists t, look (vca s' (VC_slack true b)) (skey b s') = Some t /\
     (forall t0, look (vca s (VC_slack true b)) (skey b s) = Some t0 -> t = t0) /\ (forall t, (t < length (store s))%nat -> val s' t = val s t) /\
     bnd s' b = moved P b (val s (prim b (trial s))) (val s' t)).
Proof.
  intros HI Hn. destruct (ask_inv P o safe fixmu B0 mu0 HP Ho s Q_reset HI Logic.I) as [I0 X0].
  change (ask P o Q_reset s) with (snd (reset_adjusted s)) in I0, X0.
  assert (V0 : vca (snd (reset_adjusted s)) = vca s) by reflexivity.
  destruct (reset_adjusted s) as [u0 s0] eqn:C0. cbn [snd] in I0, X0, V0.
  pose proof (slack_q s0 XL I0) as Q1. destruct (cq_slack P o true XL s0) as [t1 s1] eqn:C1. cbn [fst snd] in Q1. destruct Q1 as (I1 & X1 & L1 & F1 & K1).
  pose proof (slack_q s1 XU I1) as Q2. destruct (cq_slack P o true XU s1) as [t2 s2] eqn:C2. cbn [fst snd] in Q2. destruct Q2 as (I2 & X2 & L2 & F2 & K2).
  pose proof (slack_q s2 SL I2) as Q3. destruct (cq_slack P o true SL s2) as [t3 s3] eqn:C3. cbn [fst snd] in Q3. destruct Q3 as (I3 & X3 & L3 & F3 & K3).
  pose proof (slack_q s3 SU I3) as Q4. destruct (cq_slack P o true SU s3) as [t4 s4] eqn:C4. cbn [fst snd] in Q4. destruct Q4 as (I4 & X4 & L4 & F4 & K4).
  pose proof (ext_trans _ _ _ (ext_trans _ _ _ X0 X1) (ext_trans _ _ _ X2 (ext_trans _ _ _ X3 X4))) as X.
  pose proof (ext_trans _ _ _ X0 X1) as Y1. pose proof (ext_trans _ _ _ Y1 X2) as Y2. pose proof (ext_trans _ _ _ Y2 X3) as Y3.
  assert (T : forall s'', ext s s'' -> trial s'' = trial s) by (intros s'' [_ E]; exact (f_equal v_t E)).
  pose proof (T _ X0) as T0.
  assert (Vx : val s0 (i_x (trial s0)) = val s (i_x (trial s))) by (destruct X0 as [_ E]; exact (f_equal (fun v => e_x (v_et v)) E)).
  assert (Vs : val s0 (i_s (trial s0)) = val s (i_s (trial s))) by (destruct X0 as [_ E]; exact (f_equal (fun v => e_s (v_et v)) E)).
  set (B := fun b => match b with XL => moved P XL (val s (i_x (trial s))) (val s4 t1) | XU => moved P XU (val s (i_x (trial s))) (val s4 t2)
    | SL => moved P SL (val s (i_s (trial s))) (val s4 t3) | SU => moved P SU (val s (i_s (trial s))) (val s4 t4) end).
  assert (EQ : adjust_bounds P o s = put_bnd B s4).
  { unfold adjust_bounds. unfold adjusted_trial_slacks. rewrite bind_gets. fold (total s). apply Z.ltb_lt in Hn. rewrite Hn.
    rewrite (bind_run _ _ _ _ _ C0). unfold tg, rd. rewrite !bind_gets. cbn [itw]. rewrite Vx, Vs.
    rewrite (bind_run _ _ _ _ _ C1), (bind_run _ _ _ _ _ C2), (bind_run _ _ _ _ _ C3), (bind_run _ _ _ _ _ C4), !bind_gets. reflexivity. }
  intros s'. unfold s'. rewrite EQ. cbn [put_bnd snd].
  pose proof X as [[l El] Ev].
  assert (G : forall A (f : view -> A), f (vw s4) = f (vw s)) by (intros A f; rewrite Ev; reflexivity).
  pose proof (G _ v_t) as Gt. cbn [v_t vw] in Gt.
  split; [exact (G _ v_c)|]. split; [exact Gt|]. split; [exact (G _ v_mu)|].
  split; [pose proof (G _ v_ec) as Ge; cbn [v_ec vw] in Ge; rewrite <- Ge; pose proof (G _ v_c) as Gc; cbn [v_c vw] in Gc; rewrite Gc; reflexivity|].
  split; [pose proof (G _ v_et) as Ge; cbn [v_et vw] in Ge; rewrite <- Ge; rewrite Gt; reflexivity|].
  assert (PL : forall t, (t < length (store s))%nat -> val (St (store s4) (curr s4) (trial s4) (delta s4) (mu s4) B
                (nca s4) (vca s4) (mca s4) (pca s4) (damp s4) (nadj s4)) t = val s t)
    by (intros t Ht; apply (val_app _ _ _ _ El Ht)).
  assert (H : forall b t si, cq_slack P o true b si = (t, snd (cq_slack P o true b si)) -> trial si = trial s ->
     vca si (VC_slack true b) = vca s (VC_slack true b) -> forall t0, look (vca s (VC_slack true b)) (skey b s) = Some t0 -> t = t0).
  { intros b t si E Et Ec t0 H0. assert (E2 : cq_slack P o true b si = (t0, set_nadj si b 0)).
    { apply slack_hit. unfold skey in *. rewrite Et, Ec. exact H0. }
    rewrite E2 in E. apply (f_equal fst) in E. symmetry. exact E. }
  intros b. destruct b.
  - exists t1. unfold skey. cbn [vca trial]. split.
    { rewrite F4, F3, F2 by discriminate. unfold skey in K1. rewrite Gt. rewrite (T _ X0) in K1. exact K1. }
    split; [apply (H XL t1 s0); [rewrite C1; reflexivity|apply (T _ X0)|rewrite V0; reflexivity]|]. split; [exact PL|reflexivity].
  - exists t2. unfold skey. cbn [vca trial]. split.
    { rewrite F4, F3 by discriminate. unfold skey in K2. rewrite Gt. rewrite (T _ Y1) in K2. exact K2. }
    split; [apply (H XU t2 s1); [rewrite C2; reflexivity|apply (T _ Y1)|rewrite F1 by discriminate; rewrite V0; reflexivity]|]. split; [exact PL|reflexivity].
  - exists t3. unfold skey. cbn [vca trial]. split.
    { rewrite F4 by discriminate. unfold skey in K3. rewrite Gt. rewrite (T _ Y2) in K3. exact K3. }
    split; [apply (H SL t3 s2); [rewrite C3; reflexivity|apply (T _ Y2)|rewrite F2, F1 by discriminate; rewrite V0; reflexivity]|]. split; [exact PL|reflexivity].
  - exists t4. unfold skey. cbn [vca trial]. split.
    { unfold skey in K4. rewrite Gt. rewrite (T _ Y3) in K4. exact K4. }
    split; [apply (H SU t4 s3); [rewrite C4; reflexivity|apply (T _ Y3)|rewrite F3, F2, F1 by discriminate; rewrite V0; reflexivity]|]. split; [exact PL|reflexivity].
Qed.

Lemma moved_is b x a k : (k < nb P b)%nat ->
  (moved P b x a).[k] = match b with XL | SL => x.[nth k (pos P b) O] - a.[k] | XU | SU => x.[nth k (pos P b) O] + a.[k] end.
Proof.
  intros Hk.
  assert (V : vec_is (ptmul (pos P b) 1 x 0 []) (nb P b) (fun k => x.[nth k (pos P b) O])).
  { unfold ptmul. apply mk_is'; [reflexivity|]. intros i Hi. unfold el. ring. }
  assert (M : forall f, vec_is (vmap2 f (ptmul (pos P b) 1 x 0 []) a) (nb P b) (fun k => f (x.[nth k (pos P b) O]) (a.[k]))).
  { intros f. unfold vmap2. apply mk_is'; [apply (vis_len _ _ _ V)|]. intros i Hi. unfold el. rewrite (proj2 V i Hi). reflexivity. }
  unfold moved. destruct b; rewrite (proj2 (M _) k Hk); ring.
Qed.

Lemma qv_miss c1 c2 k comp s : look (vca s c1) k = None -> look (vca s c2) k = None ->
  qv c1 (Some c2) k comp s = (fst (comp s), snd (vadd c1 k (fst (comp s)) (snd (comp s)))).
Proof.
  intros H1 H2. unfold qv, qv2, vget, bind, gets. cbv beta iota. rewrite H1, H2. destruct (comp s) as [t s1]. reflexivity.
Qed.
(** the corrected slack for the trial point of s *)
Definition fresh (s : st) (b : bd) : vec * Z :=
  safe_slack o (mu s) (calc_slack P b (val s (prim b (trial s))) (bnd s b)) (bnd s b) (val s (mult b (curr s))).
Lemma slack_fresh s si b : Inv s -> ext s si ->
  look (vca si (VC_slack true b)) (skey b s) = None -> look (vca si (VC_slack false b)) (skey b s) = None ->
  let r := cq_slack P o true b si in
  val (snd r) (fst r) = fst (fresh s b) /\ nadj (snd r) b = snd (fresh s b) /\
  (forall b', b' <> b -> nadj (snd r) b' = nadj si b') /\
  (forall b', vca (snd r) (VC_slack false b') = vca si (VC_slack false b')).
Proof.
  intros HI [[l El] Ev] H1 H2 r.
  assert (Et : trial si = trial s) by exact (f_equal v_t Ev). assert (Ec : curr si = curr s) by exact (f_equal v_c Ev).
  assert (Em : mu si = mu s) by exact (f_equal v_mu Ev). assert (Eb : bnd si = bnd s) by exact (f_equal v_bnd Ev).
  assert (Vp : val si (prim b (trial s)) = val s (prim b (trial s))).
  { pose proof (f_equal v_et Ev) as E. cbn [v_et vw] in E. rewrite Et in E. destruct b; [exact (f_equal e_x E)|exact (f_equal e_x E)|exact (f_equal e_s E)|exact (f_equal e_s E)]. }
  assert (Vm : val si (mult b (curr s)) = val s (mult b (curr s))).
  { pose proof (f_equal v_ec Ev) as E. cbn [v_ec vw] in E. rewrite Ec in E. destruct b; [exact (f_equal e_zL E)|exact (f_equal e_zU E)|exact (f_equal e_vL E)|exact (f_equal e_vU E)]. }
  assert (Hk : skey b si = skey b s) by (unfold skey; rewrite Et; reflexivity).
  assert (Er : r = (length (store si), snd (vadd (VC_slack true b) (skey b s) (length (store si)) (set_store (set_nadj (set_nadj si b 0) b (snd (fresh s b))) (store si ++ [fst (fresh s b)]))))).
  { unfold r. rewrite slack_form, Hk, qv_miss by assumption. unfold scomp, rd, tg, cmu. rewrite !bind_gets. cbn [itw set_nadj trial curr mu bnd].
    change (val (set_nadj si b 0)) with (val si). rewrite Et, Ec, Em, Eb, Vp, Vm. reflexivity. }
  rewrite Er. cbn [fst snd vadd].
  split; [unfold val; cbn [store set_vca set_store]; rewrite app_nth2, Nat.sub_diag by lia; reflexivity|].
  split; [cbn [nadj set_vca set_store set_nadj]; destruct b; reflexivity|].
  split; [intros b' Hb; cbn [nadj set_vca set_store set_nadj]; destruct b, b'; try reflexivity; exfalso; apply Hb; reflexivity|].
  intros b'. cbn [vca set_vca set_store set_nadj]. destruct (vcid_dec (VC_slack false b') (VC_slack true b)) as [E|]; [discriminate|reflexivity].
Qed.
Definition ask4 (s : st) : st := ask P o (Q_slack true SU) (ask P o (Q_slack true SL) (ask P o (Q_slack true XU) (ask P o (Q_slack true XL) s))).
Lemma ask4_is s : Inv s -> (forall w b, look (vca s (VC_slack w b)) (skey b s) = None) ->
  let s4 := ask4 s in Inv s4 /\ ext s s4 /\
  forall b, exists t, look (vca s4 (VC_slack true b)) (skey b s4) = Some t /\ (t < length (store s4))%nat /\
    val s4 t = fst (fresh s b) /\ nadj s4 b = snd (fresh s b).
Proof.
  intros HI Hm. unfold ask4. cbn [ask]. unfold after.
  pose proof (slack_q s XL HI) as Q1. pose proof (slack_fresh s s XL HI (ext_refl s) (Hm true XL) (Hm false XL)) as R1.
  destruct (cq_slack P o true XL s) as [t1 s1] eqn:C1. cbn [fst snd] in Q1, R1. destruct Q1 as (I1 & X1 & L1 & F1 & K1). destruct R1 as (A1 & N1' & O1 & G1). cbn [snd].
  pose proof (slack_q s1 XU I1) as Q2. pose proof (slack_fresh s s1 XU HI X1 ltac:(rewrite F1 by discriminate; apply Hm) ltac:(rewrite G1; apply Hm)) as R2.
  destruct (cq_slack P o true XU s1) as [t2 s2] eqn:C2. cbn [fst snd] in Q2, R2. destruct Q2 as (I2 & X2 & L2 & F2 & K2). destruct R2 as (A2 & N2' & O2 & G2). cbn [snd].
  pose proof (ext_trans _ _ _ X1 X2) as Y2.
  pose proof (slack_q s2 SL I2) as Q3. pose proof (slack_fresh s s2 SL HI Y2 ltac:(rewrite F2, F1 by discriminate; apply Hm) ltac:(rewrite G2, G1; apply Hm)) as R3.
  destruct (cq_slack P o true SL s2) as [t3 s3] eqn:C3. cbn [fst snd] in Q3, R3. destruct Q3 as (I3 & X3 & L3 & F3 & K3). destruct R3 as (A3 & N3' & O3 & G3). cbn [snd].
  pose proof (ext_trans _ _ _ Y2 X3) as Y3.
  pose proof (slack_q s3 SU I3) as Q4. pose proof (slack_fresh s s3 SU HI Y3 ltac:(rewrite F3, F2, F1 by discriminate; apply Hm) ltac:(rewrite G3, G2, G1; apply Hm)) as R4.
  destruct (cq_slack P o true SU s3) as [t4 s4] eqn:C4. cbn [fst snd] in Q4, R4. destruct Q4 as (I4 & X4 & L4 & F4 & K4). destruct R4 as (A4 & N4' & O4 & G4). cbn [snd].
  pose proof (ext_trans _ _ _ Y3 X4) as Y4. split; [exact I4|]. split; [exact Y4|].
  assert (T : forall a b, ext a b -> trial b = trial a) by (intros a b [_ E]; exact (f_equal v_t E)).
  pose proof (T _ _ X1) as T1. pose proof (T _ _ X2) as T2. pose proof (T _ _ X3) as T3. pose proof (T _ _ X4) as T4.
  assert (W : forall a b t v, ext a b -> (t < length (store a))%nat -> val a t = v -> (t < length (store b))%nat /\ val b t = v).
  { intros a b t v X H E. destruct (hv_mono a b t v X (conj H E)). split; assumption. }
  unfold skey in *. intros [].
  - exists t1. destruct (W _ _ _ _ (ext_trans _ _ _ X2 (ext_trans _ _ _ X3 X4)) L1 A1) as [U1 U2].
    split; [rewrite F4, F3, F2 by discriminate; rewrite T4, T3, T2, T1; exact K1|]. split; [exact U1|]. split; [exact U2|]. rewrite O4, O3, O2 by discriminate. exact N1'.
  - exists t2. destruct (W _ _ _ _ (ext_trans _ _ _ X3 X4) L2 A2) as [U1 U2].
    split; [rewrite F4, F3 by discriminate; rewrite T4, T3, T2; exact K2|]. split; [exact U1|]. split; [exact U2|]. rewrite O4, O3 by discriminate. exact N2'.
  - exists t3. destruct (W _ _ _ _ X4 L3 A3) as [U1 U2].
    split; [rewrite F4 by discriminate; rewrite T4, T3; exact K3|]. split; [exact U1|]. split; [exact U2|]. rewrite O4 by discriminate. exact N3'.
  - exists t4. split; [rewrite T4; exact K4|]. split; [exact L4|]. split; [exact A4|exact N4'].
Qed.
End Acc.
