(** C62: accepting a trial point with slacks that are too small (IpIpoptAlg.cpp AcceptTrialPoint,
    IpIpoptCalculatedQuantities.cpp CalculateSafeSlack). *)
From Coq Require Import Reals List Arith Bool Lra Lia ZArith.
From Verif Require Import CQModel CQSpec CQVec CQProofs CQFuns CQSlack CQAccModel CQAccProofs CQProps.
Import ListNotations.
Open Scope R_scope.
Local Notation "v .[ i ]" := (nth i v 0) (at level 1, format "v .[ i ]").

(** the bounds that are set agree with the slack that is reported *)
Theorem C62_adjusted_bounds_match P o safe fixmu B0 mu0 s : nlp_ok P -> opts_ok o -> reach P o safe fixmu B0 mu0 s ->
  (0 < nadj s XL + nadj s XU + nadj s SL + nadj s SU)%Z ->
  let s' := snd (adjust_bounds P o s) in
  E s' false = E s false /\ E s' true = E s true /\
  forall b k, (k < nb P b)%nat -> sl P (bnd s') b (E s' true) k = (ansV (cq_slack P o true b) s').[k].
Proof.
  intros HP Ho HR Hn s'. pose proof (reach_inv _ _ _ _ _ _ HP Ho _ HR) as HI.
  destruct (adjust_is _ _ _ _ _ _ HP Ho s HI Hn) as (Hc & Ht & _ & He & He' & H). fold s' in Hc, Ht, He, He', H.
  split; [unfold E; rewrite Hc; exact He|]. split; [unfold E; rewrite Ht; exact He'|].
  intros b k Hk. destruct (H b) as (t & Hl & _ & Hv & Hb).
  assert (Hs : ansV (cq_slack P o true b) s' = val s' t) by (unfold ansV; rewrite (slack_hit _ _ _ _ _ Hl); reflexivity).
  rewrite Hs. unfold sl, E. rewrite Ht, He', Hb.
  destruct b; rewrite moved_is by exact Hk; cbn [envof e_x e_s prim]; ring.
Qed.

Lemma accept_core P o safe fixmu B0 mu0 s s4 : nlp_ok P -> opts_ok o -> Inv P o safe fixmu B0 mu0 s ->
  0 <= mu s -> 0 < slack_move o -> (forall b k, (k < nb P b)%nat -> 0 < mul b (E s false) k) ->
  Inv P o safe fixmu B0 mu0 s4 -> ext s s4 ->
  (forall b, exists t, look (vca s4 (VC_slack true b)) (skey b s4) = Some t /\ (t < length (store s4))%nat /\
    val s4 t = fst (fresh P o s b) /\ nadj s4 b = snd (fresh P o s b)) ->
  forall s', s' = snd (adjust_bounds P o s4) ->
  E s' true = E s true /\
  forall b k, (k < nb P b)%nat ->
    let old := sl P (bnd s) b (E s true) k in let new := sl P (bnd s') b (E s true) k in
    0 < new /\ old <= new /\ new - Rmax old 0 <= slack_move o * Rmax 1 (Rabs (bnd s b).[k]) /\
    (smin o (mu s) <= old -> new = old) /\
    (ansV (cq_slack P o true b) s').[k] = new.
Proof.
  intros HP Ho HI Hmu Hmv Hz I4 X4 K4 s' Es'.
  assert (Et : trial s4 = trial s) by (destruct X4 as [_ E0]; exact (f_equal v_t E0)).
  assert (Eb : bnd s4 = bnd s) by (destruct X4 as [_ E0]; exact (f_equal v_bnd E0)).
  assert (Ee : envof s4 (trial s) = envof s (trial s)).
  { destruct X4 as [_ E0]. pose proof (f_equal v_et E0) as E1. cbn [v_et vw] in E1. rewrite Et in E1. exact E1. }
  set (pv := fun b => match b with XL | XU => e_x (E s true) | _ => e_s (E s true) end).
  set (zv := fun b => match b with XL => e_zL (E s false) | XU => e_zU (E s false) | SL => e_vL (E s false) | SU => e_vU (E s false) end).
  assert (Vp : forall b, val s (prim b (trial s)) = pv b) by (intros []; reflexivity).
  assert (Vz : forall b, val s (mult b (curr s)) = zv b) by (intros []; reflexivity).
  destruct (iv_env _ _ _ _ _ _ s _ true HI eq_refl) as [(Dx & Ds & _) _]. destruct (iv_env _ _ _ _ _ _ s _ false HI eq_refl) as [(_ & _ & _ & _ & D1 & D2 & D3 & D4) _].
  cbn [v_env vw v_et v_ec] in Dx, Ds, D1, D2, D3, D4.
  assert (Lb : forall b, length (bnd s b) = nb P b) by (intros b; apply (I_b _ _ _ _ _ _ _ HI)).
  assert (Lz : forall b, length (zv b) = nb P b) by (intros []; assumption).
  assert (Lp : forall b, length (pv b) = match b with XL | XU => n_x P | _ => n_s P end) by (intros []; assumption).
  assert (Cs : forall b, vec_is (calc_slack P b (pv b) (bnd s b)) (nb P b) (sl P (bnd s) b (E s true))).
  { intros b. eapply vis_ext; [apply (calc_slack_is P b (pv b) (bnd s b) _ (Lp b) (Lb b) (ok_pos _ HP b))|]. intros k _. destruct b; reflexivity. }
  assert (Fr : forall b, let v := fresh P o s b in length (fst v) = nb P b /\
     (forall k, (k < nb P b)%nat -> 0 < (fst v).[k] /\ sl P (bnd s) b (E s true) k <= (fst v).[k] /\
        (fst v).[k] - Rmax (sl P (bnd s) b (E s true) k) 0 <= slack_move o * Rmax 1 (Rabs (bnd s b).[k]) /\
        (smin o (mu s) <= sl P (bnd s) b (E s true) k -> (fst v).[k] = sl P (bnd s) b (E s true) k)) /\
     snd v = Z.of_nat (count (nb P b) (fun k => low (sl P (bnd s) b (E s true) k) (smin o (mu s))))).
  { intros b v. unfold v, fresh. rewrite Vp, Vz.
    assert (Hz' : forall k, (k < nb P b)%nat -> 0 < (zv b).[k]) by (intros k Hk; specialize (Hz b k Hk); destruct b; exact Hz).
    destruct (Cs b) as [C1 C2].
    destruct (C61_safe_slack o (mu s) (calc_slack P b (pv b) (bnd s b)) (bnd s b) (zv b) (nb P b) Ho Hmu C1 (Lb b) (Lz b) Hz') as (_ & A & B & _ & C).
    split; [exact A|]. split.
    - intros k Hk. pose proof (C61_safe_slack_bounds o (mu s) (calc_slack P b (pv b) (bnd s b)) (bnd s b) (zv b) (nb P b) k Ho Hmu C1 (Lb b) (Lz b) Hz' Hk) as (U1 & U2 & U3).
      rewrite (C2 k Hk) in U1, U3. specialize (B k Hk). rewrite (C2 k Hk) in B. auto.
    - apply (safe_slack_is o (mu s) _ _ _ (nb P b) _ _ _ Ho Hmu (Cs b) (vis_self _ _ (Lb b)) (vis_self _ _ (Lz b))). }
  destruct (Z_lt_le_dec 0 (total s4)) as [Hp|Hn].
  - destruct (adjust_is _ _ _ _ _ _ HP Ho _ I4 Hp) as (_ & Ht & _ & _ & He & H). rewrite <- Es' in Ht, He, H. rewrite Et in Ht, He. rewrite Ee in He.
    split; [unfold E; rewrite Ht; exact He|]. intros b k Hk old new. destruct (H b) as (t & Hl & Hu & Hv & Hb). destruct (K4 b) as (t0 & K1 & K2 & K3 & _).
    rewrite (Hu t0 K1) in *. clear Hu. pose proof (Hv t0 K2) as Hv'. rewrite K3 in Hv'.
    assert (Hn : new = (fst (fresh P o s b)).[k]).
    { unfold new, sl. rewrite Hb, Et, Hv'.
      assert (Hx : val s4 (prim b (trial s)) = pv b) by (destruct b; [exact (f_equal e_x Ee)|exact (f_equal e_x Ee)|exact (f_equal e_s Ee)|exact (f_equal e_s Ee)]).
      rewrite Hx. destruct b; rewrite moved_is by exact Hk; unfold pv; ring. }
    assert (Hs : ansV (cq_slack P o true b) s' = val s' t0) by (unfold ansV; rewrite (slack_hit _ _ _ _ _ Hl); reflexivity).
    rewrite Hs, Hv'. rewrite Hn. destruct (Fr b) as (_ & F & _). destruct (F k Hk) as (F1 & F2 & F3 & F4). auto.
  - assert (Es : s' = s4).
    { apply Z.ltb_ge in Hn. rewrite Es'. unfold adjust_bounds, adjusted_trial_slacks. rewrite bind_gets. fold (total s4). rewrite Hn. reflexivity. }
    clear Es'. subst s'.
    split; [unfold E; rewrite Et; exact Ee|]. rewrite Eb.
    assert (Hc : forall b k, (k < nb P b)%nat -> smin o (mu s) <= sl P (bnd s) b (E s true) k).
    { assert (Z0 : forall b, nadj s4 b = 0%Z).
      { assert (Zp : forall b, (0 <= nadj s4 b)%Z) by (intros b; destruct (K4 b) as (t0 & _ & _ & _ & ->); destruct (Fr b) as (_ & _ & ->); lia).
        unfold total in Hn. pose proof (Zp XL). pose proof (Zp XU). pose proof (Zp SL). pose proof (Zp SU). intros []; lia. }
      intros b k Hk. destruct (Rlt_dec (sl P (bnd s) b (E s true) k) (smin o (mu s))) as [Hl|Hl]; [|lra]. exfalso.
      specialize (Z0 b). destruct (K4 b) as (t0 & _ & _ & _ & E0). destruct (Fr b) as (_ & _ & E1). rewrite E0, E1 in Z0.
      unfold count in Z0. assert (Hin : In k (filter (fun k => low (sl P (bnd s) b (E s true) k) (smin o (mu s))) (seq 0 (nb P b)))).
      { apply filter_In. split; [apply in_seq; lia|]. unfold low. destruct (Rlt_dec _ _); [reflexivity|contradiction]. }
      destruct (filter _ _); [destruct Hin|cbn in Z0; lia]. }
    intros b k Hk old new. destruct (K4 b) as (t0 & K1 & K2 & K3 & _). destruct (Fr b) as (_ & F & _). destruct (F k Hk) as (F1 & F2 & F3 & F4).
    assert (Hs : ansV (cq_slack P o true b) s4 = val s4 t0) by (unfold ansV; rewrite (slack_hit _ _ _ _ _ K1); reflexivity).
    rewrite Hs, K3. specialize (F4 (Hc b k Hk)). fold old in F1, F2, F3, F4. change new with old. rewrite F4 in *. auto.
Qed.

(** Nothing about the slacks of the trial point is known yet (this is so after a new trial point is set). The slacks are
    asked for once, then the point is accepted: it is strictly inside the bounds, these moved outwards only, at most by the
    allowed amount and not at all where the slack is large enough, and the slacks that are reported are the distances. *)
Theorem C62_accepted_point_inside P o safe fixmu B0 mu0 s : nlp_ok P -> opts_ok o -> reach P o safe fixmu B0 mu0 s ->
  0 <= mu s -> 0 < slack_move o -> (forall b k, (k < nb P b)%nat -> 0 < mul b (E s false) k) ->
  (forall w b, look (vca s (VC_slack w b)) ([prim b (trial s)], []) = None) ->
  let s' := snd (adjust_bounds P o (ask4 P o s)) in
  E s' true = E s true /\
  forall b k, (k < nb P b)%nat ->
    let old := sl P (bnd s) b (E s true) k in let new := sl P (bnd s') b (E s true) k in
    0 < new /\ old <= new /\ new - Rmax old 0 <= slack_move o * Rmax 1 (Rabs (bnd s b).[k]) /\
    (smin o (mu s) <= old -> new = old) /\
    (ansV (cq_slack P o true b) s').[k] = new.
Proof.
  intros HP Ho HR Hmu Hmv Hz Hf s'. pose proof (reach_inv _ _ _ _ _ _ HP Ho _ HR) as HI.
  destruct (ask4_is _ _ _ _ _ _ HP Ho s HI Hf) as (I4 & X4 & K4).
  exact (accept_core P o safe fixmu B0 mu0 s (ask4 P o s) HP Ho HI Hmu Hmv Hz I4 X4 K4 s' eq_refl).
Qed.

(** a variable at its lower bound, with multiplier 1 *)
Definition exA : nlp := NLP 1 0 0 [O] [] [] [] false (fun x => x.[0]) (fun _ _ => 0) (fun _ => [1]) (fun _ _ => [1])
  (fun _ => []) (fun _ => []) (fun _ => Mat 0 1 (fun _ _ => 0)) (fun _ => Mat 0 1 (fun _ _ => 0))
  (fun _ _ _ _ => Mat 1 1 (fun _ _ => 0)) (fun _ _ _ _ _ => Mat 1 1 (fun _ _ => 0)) 1 (fun _ => 1) (fun _ => 1) (fun _ => 1) false None None.
Definition exAB (b : bd) : vec := match b with XL => [0] | _ => [] end.
Definition exAI : iter := It 0 1 1 1 2 1 1 1.
Definition exAS : st := St [[0]; []; [1]] exAI exAI exAI 1 exAB (fun _ => []) (fun _ => []) (fun _ => []) [] None (fun _ => 0%Z).
Lemma exA_ok : nlp_ok exA.
Proof.
  constructor; cbn; try reflexivity; try (intros; split; reflexivity); try (intros; lra); try lra; try (intros; discriminate).
  - intros [] i H; cbn in H; try tauto. destruct H as [<-|[]]. lia.
  - intros []; cbn; repeat constructor. intros [].
Qed.
Lemma exA_start : start exA exO false exAB 1 exAS.
Proof.
  assert (H : iter_ok exA exO false exAB exAS exAI) by (split; [repeat constructor|]; split; [repeat split; reflexivity|discriminate]).
  repeat (split; [first [reflexivity|exact H|intros []; split; reflexivity]|]). split; apply H.
Qed.
Lemma exA_reach : reach exA exO false true exAB 1 exAS.
Proof. apply reach_start. exact exA_start. Qed.
(** the hypotheses of the theorem are met with a slack that has to be corrected *)
Example C62_accepted_point_inside_nonvacuous :
  nlp_ok exA /\ opts_ok exO /\ reach exA exO false true exAB 1 exAS /\ 0 <= mu exAS /\ 0 < slack_move exO /\
  (forall b k, (k < nb exA b)%nat -> 0 < mul b (E exAS false) k) /\
  (forall w b, look (vca exAS (VC_slack w b)) ([prim b (trial exAS)], []) = None) /\
  (0 < nadj (ask4 exA exO exAS) XL)%Z.
Proof.
  split; [exact exA_ok|]. split; [exact exO_ok|]. split; [exact exA_reach|]. split; [cbn; lra|]. split; [cbn; lra|].
  split; [intros [] k Hk; cbn in Hk; try lia; destruct k; [|lia]; cbn; lra|]. split; [reflexivity|].
  pose proof (reach_inv _ _ _ _ _ _ exA_ok exO_ok _ exA_reach) as HI.
  destruct (ask4_is _ _ _ _ _ _ exA_ok exO_ok exAS HI (fun w b => eq_refl)) as (_ & _ & K). destruct (K XL) as (t & _ & _ & _ & ->).
  change (fresh exA exO exAS XL) with (safe_slack exO 1 (calc_slack exA XL [0] [0]) [0] [1]).
  rewrite (proj2 (safe_slack_is exO 1 (calc_slack exA XL [0] [0]) [0] [1] 1 (fun _ => 0) (fun _ => 0) (fun _ => 1) exO_ok ltac:(lra)
    ltac:(split; [reflexivity|intros [|i] Hi; [cbn; ring|lia]]) ltac:(split; [reflexivity|intros [|i] Hi; [reflexivity|lia]]) ltac:(split; [reflexivity|intros [|i] Hi; [reflexivity|lia]]))).
  unfold count. cbn [seq filter]. unfold low. destruct (Rlt_dec 0 (smin exO 1)) as [|N]; [cbn; lia|]. exfalso. apply N. apply smin_pos; [exact exO_ok|lra].
Qed.
Lemma twice_core s4 : Inv exA exO false true exAB 1 s4 -> ext exAS s4 ->
  (forall b, exists t, look (vca s4 (VC_slack true b)) (skey b s4) = Some t /\ (t < length (store s4))%nat /\
    val s4 t = fst (fresh exA exO exAS b) /\ nadj s4 b = snd (fresh exA exO exAS b)) ->
  (ansV (cq_slack exA exO true XL) (snd (adjust_bounds exA exO (ask exA exO (Q_slack true XL) s4)))).[0] =
    sl exA (bnd (snd (adjust_bounds exA exO (ask exA exO (Q_slack true XL) s4)))) XL (E (snd (adjust_bounds exA exO (ask exA exO (Q_slack true XL) s4))) true) 0 -> False.
Proof.
  intros I4 X4 K4 H. destruct (K4 XL) as (t & K1 & K2 & K3 & _).
  assert (E5 : ask exA exO (Q_slack true XL) s4 = set_nadj s4 XL 0) by (cbn [ask]; unfold after; rewrite (slack_hit _ _ _ _ _ K1); reflexivity).
  rewrite E5 in H.
  assert (Nb : forall b, b <> XL -> nadj s4 b = 0%Z).
  { intros b Hb. destruct (K4 b) as (? & _ & _ & _ & ->). unfold fresh. destruct b; [contradiction|..]; unfold safe_slack; cbn; reflexivity. }
  assert (E6 : snd (adjust_bounds exA exO (set_nadj s4 XL 0)) = set_nadj s4 XL 0).
  { unfold adjust_bounds, adjusted_trial_slacks. rewrite bind_gets. cbn [nadj set_nadj]. rewrite (Nb XU), (Nb SL), (Nb SU) by discriminate. reflexivity. }
  rewrite E6 in H.
  assert (Hs : ansV (cq_slack exA exO true XL) (set_nadj s4 XL 0) = fst (fresh exA exO exAS XL)).
  { unfold ansV. rewrite (slack_hit _ _ (set_nadj s4 XL 0) _ t K1). exact K3. }
  rewrite Hs in H. destruct X4 as [_ Ev].
  assert (R0 : sl exA (bnd (set_nadj s4 XL 0)) XL (E (set_nadj s4 XL 0) true) 0 = 0 - 0).
  { pose proof (f_equal v_bnd Ev) as Eb. pose proof (f_equal v_et Ev) as Ee. cbn [v_bnd v_et vw] in Eb, Ee.
    unfold sl, E. cbn [bnd set_nadj trial]. change (envof (set_nadj s4 XL 0)) with (envof s4). rewrite Eb, Ee. reflexivity. }
  rewrite R0 in H. change (fresh exA exO exAS XL) with (safe_slack exO 1 (calc_slack exA XL [0] [0]) [0] [1]) in H.
  assert (W : 0 < (fst (safe_slack exO 1 (calc_slack exA XL [0] [0]) [0] [1])).[0]).
  { apply (C61_safe_slack_bounds exO 1 (calc_slack exA XL [0] [0]) [0] [1] 1 0 exO_ok); try reflexivity; try lia; [lra| |cbn; lra].
    intros [|i] Hi; [cbn; lra|lia]. }
  lra.
Qed.
(** Without the condition that the slacks are asked for only once the property is false: the second question forgets that
    slacks were corrected, the bounds are not moved, and the accepted point is on its bound although a positive slack is reported. *)
Theorem C62_asking_twice_refuted :
  ~ (forall P o B0 mu0 s, nlp_ok P -> opts_ok o -> reach P o false true B0 mu0 s ->
     0 <= mu s -> 0 < slack_move o -> (forall b k, (k < nb P b)%nat -> 0 < mul b (E s false) k) ->
     (forall w b, look (vca s (VC_slack w b)) ([prim b (trial s)], []) = None) ->
     let s' := snd (adjust_bounds P o (ask P o (Q_slack true XL) (ask4 P o s))) in
     forall b k, (k < nb P b)%nat -> (ansV (cq_slack P o true b) s').[k] = sl P (bnd s') b (E s' true) k).
Proof.
  intros H. destruct C62_accepted_point_inside_nonvacuous as (A1 & A2 & A3 & A4 & A5 & A6 & A7 & _).
  pose proof (reach_inv _ _ _ _ _ _ exA_ok exO_ok _ exA_reach) as HI.
  destruct (ask4_is _ _ _ _ _ _ exA_ok exO_ok exAS HI (fun w b => eq_refl)) as (I4 & X4 & K4).
  apply (twice_core _ I4 X4 K4). apply (H exA exO exAB 1 exAS A1 A2 A3 A4 A5 A6 A7 XL O). cbn. lia.
Qed.
Print Assumptions C62_adjusted_bounds_match.
Print Assumptions C62_accepted_point_inside.
Print Assumptions C62_asking_twice_refuted.
