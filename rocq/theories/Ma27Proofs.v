(** The MA27 object keeps the promises TSymLinearSolver relies on. *)
From Coq Require Import Reals List Arith Bool Lia Lra.
From Verif Require CsrModel.
From Verif Require Import PdModel TsModel TsSpec TsProofs Ma27Model.
Import ListNotations.
Open Scope R_scope.

Section P.
Context {S F : Type}.
Variable K : kernel S F.
Variable mem : nat -> nat -> nat -> nat.
Variable ub : ma27 S F -> status * ma27 S F.
Variables (piv0 pivmax : R) (skip_inertia : bool).
Notation ma27 := (ma27 S F).
Definition kernel_ok : Prop :=
  (forall d nz ia ja sy r1 r2 piv la liw v inf x, k_a K d nz ia ja = Some (sy, r1, r2) -> k_b K sy ia ja piv la liw v = (inf, x) ->
     i_flag inf = F_ok -> forall b, length b = d -> length (k_c K x b) = d /\ forall M, denotes TripF d ia ja v M -> solves d M (k_c K x b) b) /\
  (forall d nz ia ja sy r1 r2 piv la liw v inf x, k_a K d nz ia ja = Some (sy, r1, r2) -> k_b K sy ia ja piv la liw v = (inf, x) ->
     forall m, i_flag inf = F_la m -> (la <= m)%nat).
Definition mem_ok : Prop := forall l b m, (m <= mem l b m)%nat /\ (b <= mem l b m)%nat.
Hypothesis HK : kernel_ok.
Hypothesis HM : mem_ok.
Variables (scinit : bool) (sc : nat -> list nat -> list nat -> list R -> bool * list R).
Hypothesis Hsc : forall d ir jc v, fst (sc d ir jc v) = true -> length (snd (sc d ir jc v)) = d /\ Forall (fun x => x <> 0) (snd (sc d ir jc v)).

Definition symok (d nz : nat) (ia ja : CsrModel.arr) (w : ma27) : Prop := exists sy r1 r2, a_sym w = Some (sy, ia, ja) /\ k_a K d nz ia ja = Some (sy, r1, r2).
Definition mStr (d nz : nat) (ia ja : CsrModel.arr) (w : ma27) : Prop :=
  a_dim w = d /\ a_nz w = nz /\ symok d nz ia ja w /\ (nz <= a_la w)%nat /\ (nz <= a_len w)%nat /\ (a_lainc w = false -> a_len w = a_la w).
Definition mAllowed (d nz : nat) (ia ja : CsrModel.arr) (w : ma27) : Prop :=
  a_lainc w = false /\ (a_warm w = false -> a_dim w = 0%nat) /\ (a_warm w = true -> a_dim w = d /\ a_nz w = nz /\ symok d nz ia ja w /\ (nz <= a_la w)%nat /\ a_len w = a_la w).
Definition mIdle (w : ma27) : Prop := a_len w = a_la w /\ forall v, a_cont w <> Vals v.
Definition mFresh (w : ma27) (new : bool) : Prop := new = true \/ (a_refac w = true /\ a_pivch w = false).
Definition solver_for (d : nat) (ia ja : CsrModel.arr) (v : list R) (x : F) : Prop :=
  forall b, length b = d -> length (k_c K x b) = d /\ forall M, denotes TripF d ia ja v M -> solves d M (k_c K x b) b.
Definition mUses (w : ma27) (new : bool) (v : list R) : Prop :=
  (mFresh w new /\ a_cont w = Vals v) \/
  (new = false /\ a_refac w = false /\ a_len w = a_la w /\ exists x, a_cont w = Fac x /\
     forall nz ia ja, symok (a_dim w) nz ia ja w -> solver_for (a_dim w) ia ja v x).
Definition usable1 (r : status) : bool := match r with SUCCESS => true | _ => false end.

Lemma mStr_mk d nz ia ja w c la liw ini pc rf lainc liwinc pv neg wa : a_dim w = d -> a_nz w = nz -> symok d nz ia ja w -> (nz <= la)%nat ->
  mStr d nz ia ja (MA c la la liw (a_dim w) (a_nz w) (a_sym w) ini pc rf lainc liwinc pv neg wa).
Proof. intros D N SO L. split; [exact D|]. split; [exact N|]. split; [exact SO|]. cbn. auto. Qed.

(* a factorization of given values *)
Lemma factorize_ok d nz ia ja chk n v w : mStr d nz ia ja w -> a_cont w = Vals v ->
  exists r w', ma_factorize K mem ub skip_inertia false ia ja chk n w = (r, w') /\
    mStr d nz ia ja w' /\ mIdle w' /\ a_pivch w' = a_pivch w /\ a_refac w' = a_refac w /\
    (r = SUCCESS -> exists x, a_cont w' = Fac x /\ solver_for d ia ja v x).
Proof.
  intros (D & N & SO & L1 & L2 & L3) Hc. unfold ma_factorize. rewrite Hc.
  pose proof SO as (sy & r1 & r2 & E1 & E2). rewrite E1.
  set (la := if a_lainc w then mem (a_la w) (a_la w) 0%nat else a_la w).
  set (len := if a_lainc w then la else a_len w).
  set (liw := if a_liwinc w then mem (a_liw w) (a_liw w) 0%nat else a_liw w).
  assert (LL : len = la /\ (nz <= la)%nat).
  { unfold len, la. destruct (a_lainc w); [|rewrite L3; auto]. split; auto. destruct (HM (a_la w) (a_la w) 0%nat) as [_ Q]. lia. }
  destruct LL as [LL LN]. rewrite LL. clearbody la liw. clear len LL.
  rewrite (proj2 (Nat.ltb_ge la la)) by lia.
  replace (if a_lainc w then Vals v else Vals v) with (@Vals F v) by (destruct (a_lainc w); auto). cbv beta iota.
  destruct (k_b K sy ia ja (a_piv w) la liw v) as [inf x] eqn:Eb.
  destruct HK as [KS0 KM0]. destruct (k_b K sy ia ja (a_piv w) la liw v) as [inf' x'] eqn:Eb' in Eb. injection Eb as -> ->.
  pose proof (KS0 d nz ia ja sy r1 r2 _ _ _ _ _ _ E2 Eb') as KS. pose proof (KM0 d nz ia ja sy r1 r2 _ _ _ _ _ _ E2 Eb') as KM.
  assert (FIN : forall r c la' liw' i1 i2 neg, (nz <= la')%nat -> (forall u, c <> Vals u) ->
    (r = SUCCESS -> exists x, c = Fac x /\ solver_for d ia ja v x) ->
    exists r0 w', (r, MA c la' la' liw' (a_dim w) (a_nz w) (a_sym w) (a_init w) (a_pivch w) (a_refac w) i1 i2 (a_piv w) neg (a_warm w)) = (r0, w') /\
    mStr d nz ia ja w' /\ mIdle w' /\ a_pivch w' = a_pivch w /\ a_refac w' = a_refac w /\
    (r0 = SUCCESS -> exists x, a_cont w' = Fac x /\ solver_for d ia ja v x)).
  { intros r c la' liw' i1 i2 neg Hl Hn Hs. eexists; eexists; split; [reflexivity|]. split; [apply mStr_mk; auto|].
    split; [split; [reflexivity|exact Hn]|]. auto. }
  rewrite E1 in FIN.
  destruct (i_flag inf) as [|m|m| |m|] eqn:Ef; cbn [negb andb].
  - destruct (negb skip_inertia && chk && negb (n =? i_neg inf)%nat); apply FIN; auto; try discriminate.
    intros _. exists x. split; auto. intros b Lb. apply KS; auto.
  - destruct (HM la la 0%nat) as [_ Q]. apply FIN; try discriminate. lia.
  - pose proof (KM m eq_refl). destruct (HM la m 0%nat) as [_ Q]. apply FIN; try discriminate. lia.
  - apply FIN; auto; discriminate.
  - apply FIN; auto; discriminate.
  - apply FIN; auto; discriminate.
Qed.

Lemma slice_len d k nrhs (rhs : list R) : length rhs = (nrhs * d)%nat -> (k < nrhs)%nat -> length (slice d k rhs) = d.
Proof. intros L Hk. unfold slice. rewrite firstn_length, skipn_length, L. nia. Qed.
Lemma backsolve_ok w d ia ja v x nrhs rhs : a_cont w = Fac x -> a_dim w = d -> solver_for d ia ja v x -> length rhs = (nrhs * d)%nat ->
  length (ma_backsolve K nrhs rhs w) = length rhs /\
  forall M, denotes TripF d ia ja v M -> forall k, (k < nrhs)%nat -> solves d M (slice d k (ma_backsolve K nrhs rhs w)) (slice d k rhs).
Proof.
  intros Hc Hd Hs L. unfold ma_backsolve. rewrite Hc, Hd, flat_map_concat_map.
  set (l := map (fun k => k_c K x (slice d k rhs)) (seq 0 nrhs)).
  assert (FL : Forall (fun b => length b = d) l).
  { apply Forall_map, Forall_forall. intros k Hk. apply in_seq in Hk. apply Hs. apply (slice_len d k nrhs); auto. lia. }
  assert (LL : length l = nrhs) by (unfold l; rewrite map_length, seq_length; auto).
  split; [rewrite (concat_len d), LL; auto|].
  intros M HMd k Hk. rewrite slice_concat by (rewrite ?LL; auto).
  unfold l. rewrite (nth_indep _ [] (k_c K x (slice d 0 rhs))) by (rewrite map_length, seq_length; auto).
  rewrite (map_nth (fun k => k_c K x (slice d k rhs))), seq_nth by auto. cbn [Nat.add].
  apply Hs; auto. apply (slice_len d k nrhs); auto.
Qed.

Lemma solve_go d nz new ia ja v nrhs rhs chk n w r rhs' w' : mStr d nz ia ja w -> length rhs = (nrhs * d)%nat ->
  (a_pivch w = false) ->
  ((new = true \/ a_refac w = true) /\ a_cont w = Vals v \/
   new = false /\ a_refac w = false /\ a_len w = a_la w /\ exists x, a_cont w = Fac x /\ solver_for d ia ja v x) ->
  (if new || a_refac w then
      let (r, w) := ma_factorize K mem ub skip_inertia false ia ja chk n w in
      match r with
      | SUCCESS => let w := set_flags w (a_pivch w) false in (SUCCESS, ma_backsolve K nrhs rhs w, w)
      | _ => (r, rhs, w)
      end
    else (SUCCESS, ma_backsolve K nrhs rhs w, w)) = (r, rhs', w') ->
  mStr d nz ia ja w' /\ mIdle w' /\ (usable1 r = true -> mUses w' false v) /\
  (r = SUCCESS -> length rhs' = length rhs /\
      forall M, denotes TripF d ia ja v M -> forall k, (k < nrhs)%nat -> solves d M (slice d k rhs') (slice d k rhs)) /\
  (r = CALL_AGAIN -> rhs' = rhs /\ mFresh w' new).
Proof.
  intros St L Hp Hc Q.
  assert (DONE : forall w x, mStr d nz ia ja w -> a_len w = a_la w -> a_cont w = Fac x -> solver_for d ia ja v x -> a_refac w = false ->
     (SUCCESS, ma_backsolve K nrhs rhs w, w) = (r, rhs', w') ->
     mStr d nz ia ja w' /\ mIdle w' /\ (usable1 r = true -> mUses w' false v) /\
     (r = SUCCESS -> length rhs' = length rhs /\
      forall M, denotes TripF d ia ja v M -> forall k, (k < nrhs)%nat -> solves d M (slice d k rhs') (slice d k rhs)) /\
     (r = CALL_AGAIN -> rhs' = rhs /\ mFresh w' new)).
  { intros w0 x S0 L0 C0 SF R0 Q0. injection Q0 as <- <- <-. split; auto. split; [split; auto; intros u; rewrite C0; discriminate|].
    pose proof S0 as (D0 & N0 & SO & _). split.
    - intros _. right. split; auto. split; auto. split; auto. exists x. split; auto. intros nz' ia' ja' (sy' & r1' & r2' & E' & _).
      destruct SO as (sy & r1 & r2 & E & _). rewrite D0. assert (ia' = ia /\ ja' = ja) as [-> ->] by (split; congruence). exact SF.
    - split; [intros _; eapply backsolve_ok; eauto|discriminate]. }
  destruct Hc as [[Hn Hv]|(-> & Hr & Hl & x & Hx & SF)].
  - assert (B : new || a_refac w = true) by (destruct Hn as [-> | ->]; [reflexivity|apply orb_true_r]). rewrite B in Q.
    destruct (factorize_ok d nz ia ja chk n v w St Hv) as (r0 & w0 & E0 & S0 & I0 & P0 & R0 & SU).
    rewrite E0 in Q.
    assert (OTHER : r0 <> SUCCESS -> (r0, rhs, w0) = (r, rhs', w') ->
      mStr d nz ia ja w' /\ mIdle w' /\ (usable1 r = true -> mUses w' false v) /\
     (r = SUCCESS -> length rhs' = length rhs /\
      forall M, denotes TripF d ia ja v M -> forall k, (k < nrhs)%nat -> solves d M (slice d k rhs') (slice d k rhs)) /\
     (r = CALL_AGAIN -> rhs' = rhs /\ mFresh w' new)).
    { intros N Q0. injection Q0 as <- <- <-. split; auto. split; auto. split; [destruct r0; [congruence|discriminate..]|].
      split; [congruence|]. intros _. split; auto. destruct Hn as [->|Hn]; [left; auto|right]. split; congruence. }
    destruct r0; try (apply OTHER; [discriminate|exact Q]).
    destruct (SU eq_refl) as (x & Hx & SF). apply (DONE (set_flags w0 (a_pivch w0) false) x); auto. apply I0.
  - rewrite Hr in Q. cbn [orb] in Q. apply (DONE w x); auto.
Qed.

(** MA27's object, with any scaling method that gives nonzero factors, is a sparse solver as TSymLinearSolver assumes it. *)
Theorem ma27_backend : backend (ma27_env K mem ub piv0 pivmax skip_inertia false scinit sc) TripF usable1 mAllowed mStr mIdle mFresh mUses.
Proof.
  constructor.
  - reflexivity.
  - reflexivity.
  - reflexivity.
  - intros w w' Q d nz ia ja. cbn in Q. injection Q as <-. split; [reflexivity|]. cbn. split; [reflexivity|discriminate].
  - intros d nz ia ja w w' H Q. cbn in Q. unfold ma_init in Q. cbn [negb] in Q. injection Q as Q1 <-. split; [reflexivity|]. split; [discriminate|]. intros _.
    destruct H as [[A1 [A0 A2]]|[S0 [I0 _]]].
    + cbn. destruct (a_warm w) eqn:Ew.
      * destruct (A2 eq_refl) as (D & N & SO & L & LL). repeat (split; [assumption|]). assumption.
      * rewrite (A0 eq_refl) in Q1. discriminate Q1.
    + destruct S0 as (D & N & SO & L & _). repeat (split; [assumption|]). exact I0.
  - intros d nz ia ja w b w' H Q. cbn in Q. injection Q as <- <-. exact H.
  - intros d nz ia ja w r w' [A1 [_ A2]] Q. cbn in Q. unfold ma_struct in Q. destruct (a_warm w) eqn:Ew; cbn [negb] in Q.
    + destruct (A2 eq_refl) as (D & N & SO & L & LL). rewrite D, N, !Nat.eqb_refl in Q. cbn [andb] in Q. injection Q as <- <-. left. split; auto.
      split; [reflexivity|]. split; [reflexivity|]. split; [exact SO|]. cbn. split; [exact L|]. split; [lia|auto].
    + cbn in Q. destruct (k_a K d nz ia ja) as [[[sy r1] r2]|] eqn:Ea; injection Q as <- <-; auto.
      left. split; auto. split; [reflexivity|]. split; [reflexivity|]. split; [exists sy, r1, r2; auto|]. cbn.
      destruct (HM (a_la w) r1 nz). auto.
  - intros d nz ia ja w H. cbn. unfold ma_read. destruct (a_cont w); rewrite ?firstn_length, ?app_length, ?repeat_length; lia.
  - intros d nz ia ja w H. left. reflexivity.
  - intros d nz ia ja w v (D & N & SO & L1 & L2 & L3) Lv. cbn. unfold ma_put, ma_get_array.
    set (w1 := if a_lainc w then set_a w Junk (a_nz w) else w).
    assert (W1 : a_len w1 = (if a_lainc w then a_nz w else a_len w) /\ a_dim w1 = a_dim w /\ a_nz w1 = a_nz w /\ a_sym w1 = a_sym w /\
      a_la w1 = a_la w /\ a_lainc w1 = a_lainc w /\ a_refac w1 = a_refac w /\ a_pivch w1 = a_pivch w).
    { unfold w1. destruct (a_lainc w) eqn:E; cbn; auto 10. }
    destruct W1 as (X1 & X2 & X3 & X4 & X5 & X6 & X7 & X8).
    rewrite (proj2 (Nat.ltb_ge (a_len w1) (length v))) by (rewrite X1; destruct (a_lainc w); lia).
    split.
    + unfold mStr, symok. cbn. rewrite X1, X2, X3, X4, X5, X6. repeat (split; [assumption|]). destruct (a_lainc w); split; auto; try lia; discriminate.
    + intros new Fr. assert (Fr' : mFresh (set_a w1 (Vals v) (a_len w1)) new).
      { unfold mFresh in *. cbn. rewrite X7, X8. exact Fr. }
      split; auto. left. split; auto.
  - intros d nz ia ja w new v nrhs rhs chk n r rhs' w' St U L Q. cbn in Q. unfold ma_solve in Q.
    pose proof St as (D & N & SO & L1 & L2 & L3).
    destruct (a_pivch w) eqn:Ep.
    + destruct new; cbn [negb] in Q.
      * apply (solve_go d nz true ia ja v nrhs rhs chk n (set_flags w false (a_refac w)) r rhs' w'); auto.
        left. split; auto. destruct U as [[_ U]|[U _]]; [exact U|discriminate].
      * injection Q as <- <- <-. destruct U as [[[U|[_ U]] _]|(_ & R0 & LL & x & Hx & _)]; [discriminate|congruence|].
        split; [exact St|]. split; [split; [exact LL|cbn; intros u; rewrite Hx; discriminate]|]. split; [discriminate|]. split; [discriminate|].
        intros _. split; auto. right. split; reflexivity.
    + apply (solve_go d nz new ia ja v nrhs rhs chk n w r rhs' w'); auto.
      destruct U as [[U1 U2]|(U1 & U2 & U3 & x & U4 & U5)].
      * left. split; auto. destruct U1 as [U1|[U1 _]]; auto.
      * right. split; auto. split; auto. split; auto. exists x. split; auto. rewrite D in U5. apply (U5 nz). exact SO.
  - intros d nz ia ja w b w' St [I1 I2] Q. cbn in Q. unfold ma_incq in Q. destruct (Req_EM_T (a_piv w) pivmax); injection Q as <- <-.
    + split; auto. split; [split; auto|auto].
    + split; [exact St|]. split; [split; [exact I1|exact I2]|]. intros v [[_ U]|U]; [destruct (I2 _ U)|]. right. exact U.
  - intros d nz ia ja w b w' A Q. cbn in Q. unfold ma_incq in Q. destruct (Req_EM_T (a_piv w) pivmax); injection Q as <- <-; exact A.
  - intros d nz ia ja w d' ir jc vals ok fac w' St Q. cbn in Q. injection Q as <- <- <-. split; [exact St|]. apply Hsc.
Qed.
End P.
