(** Proofs about the golden section search of the quality function oracle. *)
From Coq Require Import Reals List Bool Arith Lra Lia.
From Verif Require Import AmuModel AmuSpec.
Import ListNotations.
Open Scope R_scope.
Set Implicit Arguments.

Lemma gfac_sq : gfac * gfac = 3 * gfac - 1.
Proof.
  unfold gfac. pose proof (sqrt_sqrt 5 ltac:(lra)) as S5.
  set (s := sqrt 5) in *. replace ((3 - s) / 2 * ((3 - s) / 2)) with ((9 - 6 * s + s * s) / 4) by field.
  rewrite S5. field.
Qed.
Lemma gfac_range : 0 < gfac < / 2.
Proof.
  unfold gfac.
  assert (2 < sqrt 5).
  { rewrite <- (sqrt_square 2) by lra. apply sqrt_lt_1; lra. }
  assert (sqrt 5 < 3).
  { rewrite <- (sqrt_square 3) by lra. apply sqrt_lt_1; lra. }
  lra.
Qed.

Section Golden.
Variable f : R -> R.

(** The invariant of the loop; [k]: number of loop passes, [n]: number of evaluations. *)
Record ginv (lo_in up_in qlo_in qup_in : R) (k : nat) (g : gst) : Prop := {
  gi_m1 : g_m1 g = g_lo g + gfac * (g_up g - g_lo g);
  gi_m2 : g_m2 g = g_lo g + (1 - gfac) * (g_up g - g_lo g);
  gi_q1 : g_q1 g = f (g_m1 g);
  gi_q2 : g_q2 g = f (g_m2 g);
  gi_w : g_up g - g_lo g = (1 - gfac) ^ k * (up_in - lo_in);
  gi_lo : lo_in <= g_lo g;
  gi_up : g_up g <= up_in;
  gi_qlo : (g_lo g = lo_in /\ g_qlo g = qlo_in) \/
           (lo_in < g_lo g /\ g_qlo g = f (g_lo g) /\ Rmin (g_q1 g) (g_q2 g) <= g_qlo g);
  gi_qup : (g_up g = up_in /\ g_qup g = qup_in) \/
           (g_up g < up_in /\ g_qup g = f (g_up g) /\ Rmin (g_q1 g) (g_q2 g) <= g_qup g);
  gi_len : length (g_evals g) = (2 + k)%nat;
  gi_in : forall x, In x (g_evals g) -> lo_in < x < up_in;
  gi_best : forall x, In x (g_evals g) -> Rmin (g_q1 g) (g_q2 g) <= f x
}.

Lemma g_init_inv lo up qlo qup : lo < up -> ginv lo up qlo qup 0 (g_init f up qup lo qlo).
Proof.
  intros L. pose proof gfac_range as G. unfold g_init; cbv zeta.
  assert (P1 : 0 < gfac * (up - lo) < up - lo).
  { split; [apply Rmult_lt_0_compat; lra|]. rewrite <- (Rmult_1_l (up - lo)) at 2. apply Rmult_lt_compat_r; lra. }
  assert (P2 : 0 < (1 - gfac) * (up - lo) < up - lo).
  { split; [apply Rmult_lt_0_compat; lra|]. rewrite <- (Rmult_1_l (up - lo)) at 2. apply Rmult_lt_compat_r; lra. }
  split; cbn [g_lo g_up g_m1 g_m2 g_q1 g_q2 g_qlo g_qup g_evals]; auto; try lra.
  - intros x [<-|[<-|[]]]; lra.
  - intros x [<-|[<-|[]]]; [apply Rmin_r|apply Rmin_l].
Qed.

Lemma ginv_width lo up qlo qup k g : lo < up -> ginv lo up qlo qup k g -> g_lo g < g_up g.
Proof.
  intros L I. pose proof (gi_w I) as W. pose proof gfac_range as G.
  assert (0 < (1 - gfac) ^ k * (up - lo)); [|lra].
  apply Rmult_lt_0_compat; [apply pow_lt; lra|lra].
Qed.

Lemma g_step_inv lo up qlo qup k g : lo < up -> ginv lo up qlo qup k g -> ginv lo up qlo qup (Datatypes.S k) (g_step f g).
Proof.
  intros L I. pose proof (ginv_width L I) as W. pose proof gfac_range as G. pose proof gfac_sq as GS.
  destruct I as [A1 A2 A3 A4 A5 A6 A7 A8 A9 A10 A11 A12].
  set (w := g_up g - g_lo g) in *.
  assert (Pw : 0 < w) by (unfold w; lra).
  assert (P1 : 0 < gfac * w < w).
  { split; [apply Rmult_lt_0_compat; lra|]. rewrite <- (Rmult_1_l w) at 2. apply Rmult_lt_compat_r; lra. }
  assert (P2 : 0 < (1 - gfac) * w < w).
  { split; [apply Rmult_lt_0_compat; lra|]. rewrite <- (Rmult_1_l w) at 2. apply Rmult_lt_compat_r; lra. }
  assert (P3 : gfac * w < (1 - gfac) * w) by (apply Rmult_lt_compat_r; lra).
  assert (D : forall a, (1 - gfac) * (gfac * a) = a * (1 - 2 * gfac)).
  { intros a. replace ((1 - gfac) * (gfac * a)) with (a * (gfac - gfac * gfac)) by ring. rewrite GS. ring. }
  assert (D2 : (1 - gfac) * ((1 - gfac) * w) = gfac * w).
  { replace ((1 - gfac) * ((1 - gfac) * w)) with (w * (1 - 2 * gfac + gfac * gfac)) by ring. rewrite GS. ring. }
  unfold g_step. destruct (Rgt_dec (g_q1 g) (g_q2 g)) as [Q|Q].
  - set (w' := g_up g - g_m1 g).
    assert (W' : w' = (1 - gfac) * w) by (unfold w', w in *; rewrite A1; ring).
    assert (E2 : gfac * w' = g_m2 g - g_m1 g).
    { rewrite W'. replace (gfac * ((1 - gfac) * w)) with ((1 - gfac) * (gfac * w)) by ring. rewrite D, A1, A2. ring. }
    assert (P4 : gfac * w' < (1 - gfac) * w' < w').
    { assert (0 < w') by (rewrite W'; lra). split; [apply Rmult_lt_compat_r; lra|].
      rewrite <- (Rmult_1_l w') at 2. apply Rmult_lt_compat_r; lra. }
    assert (E3 : w' = g_up g - g_m1 g) by reflexivity.
    assert (E4 : w = g_up g - g_lo g) by reflexivity.
    assert (MN : Rmin (g_q1 g) (g_q2 g) = g_q2 g) by (apply Rmin_right; lra).
    rewrite MN in *. clearbody w w'.
    split; cbn [g_lo g_up g_m1 g_m2 g_q1 g_q2 g_qlo g_qup g_evals]; rewrite <- ?E3; auto; try lra.
    + cbn [pow]. rewrite Rmult_assoc, <- A5. lra.
    + right. split; [lra|]. split; [exact A3|]. eapply Rle_trans; [apply Rmin_l|]. lra.
    + destruct A9 as [(B1 & B2)|(B1 & B2 & B3)]; [left; split; lra|right].
      split; [exact B1|]. split; [exact B2|]. eapply Rle_trans; [apply Rmin_l|]. exact B3.
    + cbn [length]. rewrite A10. reflexivity.
    + intros x [<-|Hx]; [lra|exact (A11 x Hx)].
    + intros x [<-|Hx]; [apply Rmin_r|]. eapply Rle_trans; [apply Rmin_l|]. exact (A12 x Hx).
  - set (w' := g_m2 g - g_lo g).
    assert (W' : w' = (1 - gfac) * w) by (unfold w', w in *; rewrite A2; ring).
    assert (E2 : (1 - gfac) * w' = g_m1 g - g_lo g).
    { rewrite W', D2, A1. ring. }
    assert (P4 : 0 < gfac * w' < (1 - gfac) * w').
    { assert (0 < w') by (rewrite W'; lra). split; [apply Rmult_lt_0_compat; lra|apply Rmult_lt_compat_r; lra]. }
    assert (E3 : w' = g_m2 g - g_lo g) by reflexivity.
    assert (E4 : w = g_up g - g_lo g) by reflexivity.
    assert (MN : Rmin (g_q1 g) (g_q2 g) = g_q1 g) by (apply Rmin_left; lra).
    rewrite MN in *. clearbody w w'.
    split; cbn [g_lo g_up g_m1 g_m2 g_q1 g_q2 g_qlo g_qup g_evals]; rewrite <- ?E3; auto; try lra.
    + cbn [pow]. rewrite Rmult_assoc, <- A5. lra.
    + destruct A8 as [(B1 & B2)|(B1 & B2 & B3)]; [left; split; lra|right].
      split; [exact B1|]. split; [exact B2|]. eapply Rle_trans; [apply Rmin_r|]. exact B3.
    + right. split; [lra|]. split; [exact A4|]. eapply Rle_trans; [apply Rmin_r|]. lra.
    + cbn [length]. rewrite A10. reflexivity.
    + intros x [<-|Hx]; [lra|exact (A11 x Hx)].
    + intros x [<-|Hx]; [apply Rmin_l|]. eapply Rle_trans; [apply Rmin_r|]. exact (A12 x Hx).
Qed.

(** With a unimodal function the minimiser stays in the bracket. *)
Lemma g_step_unimodal lo up qlo qup k g m : lo < up -> unimodal f lo up m -> ginv lo up qlo qup k g ->
  g_lo g <= m <= g_up g -> g_lo (g_step f g) <= m <= g_up (g_step f g).
Proof.
  intros L (U1 & U2 & U3) I Hm. pose proof (ginv_width L I) as W. pose proof gfac_range as G.
  destruct I as [A1 A2 A3 A4 A5 A6 A7 A8 A9 A10 A11 A12].
  assert (P3 : g_lo g < g_m1 g /\ g_m1 g < g_m2 g /\ g_m2 g < g_up g).
  { set (w := g_up g - g_lo g) in *.
    assert (0 < gfac * w) by (apply Rmult_lt_0_compat; unfold w; lra).
    assert (gfac * w < (1 - gfac) * w) by (apply Rmult_lt_compat_r; unfold w; lra).
    assert ((1 - gfac) * w < w) by (rewrite <- (Rmult_1_l w) at 2; apply Rmult_lt_compat_r; unfold w; lra).
    unfold w in *. lra. }
  unfold g_step. destruct (Rgt_dec (g_q1 g) (g_q2 g)) as [Q|Q]; cbn [g_lo g_up].
  - split; [|lra]. destruct (Rle_lt_dec (g_m1 g) m) as [H|H]; [exact H|].
    assert (f (g_m1 g) < f (g_m2 g)) by (apply U3; lra). lra.
  - split; [lra|]. destruct (Rle_lt_dec m (g_m2 g)) as [H|H]; [exact H|].
    assert (f (g_m2 g) < f (g_m1 g)) by (apply U2; lra). lra.
Qed.

(** What holds after the loop; the loop has stopped because a test failed or all passes are
    used up. *)
Lemma g_loop_inv lo up qlo qup stol qtol : lo < up -> forall n k g, ginv lo up qlo qup k g ->
  exists j, (k <= j <= k + n)%nat /\
    ginv lo up qlo qup j (g_loop f n stol qtol g) /\
    (j = (k + n)%nat \/ wide (g_loop f n stol qtol g) stol && qf_ge (g_loop f n stol qtol g) qtol = false) /\
    (forall m, unimodal f lo up m -> g_lo g <= m <= g_up g ->
       g_lo (g_loop f n stol qtol g) <= m <= g_up (g_loop f n stol qtol g)).
Proof.
  intros L. induction n as [|n IH]; intros k g I; cbn [g_loop].
  - exists k. split; [lia|]. split; [exact I|]. split; [left; lia|]. auto.
  - destruct (wide g stol && qf_ge g qtol) eqn:T.
    + destruct (IH _ _ (g_step_inv L I)) as (j & J1 & J2 & J3 & J4).
      exists j. split; [lia|]. split; [exact J2|]. split; [destruct J3 as [J3|J3]; [left; lia|right; exact J3]|].
      intros m U Hm. apply (J4 m U). exact (g_step_unimodal L U I Hm).
    + exists k. split; [lia|]. split; [exact I|]. split; [right; exact T|]. auto.
Qed.

Lemma wide_iff g tol : wide g tol = true <-> g_up g - g_lo g >= tol * g_up g.
Proof. unfold wide. destruct (Rge_dec _ _); split; intros; try discriminate; auto; contradiction. Qed.

(** The sigma returned is one of the four points of the last bracket. *)
Lemma g_result_point up_in lo_in stol qtol g :
  In (fst (g_result f up_in lo_in stol qtol g)) [g_lo g; g_m1 g; g_m2 g; g_up g].
Proof.
  unfold g_result. destruct (wide g stol && qf_lt g qtol).
  - cbn [fst]. repeat destruct (Req_EM_T _ _); cbn; auto.
  - destruct (Rlt_dec (g_q1 g) (g_q2 g)); destruct (Req_EM_T (g_up g) up_in); try destruct (Req_EM_T (g_lo g) lo_in);
      try destruct (Rlt_dec (g_qup g) 0); try destruct (Rlt_dec (g_qlo g) 0); cbn [fst]; try (destruct (Rlt_dec _ _)); cbn; auto.
Qed.

Lemma g_result_evals up_in lo_in stol qtol g :
  exists l, snd (g_result f up_in lo_in stol qtol g) = l ++ g_evals g /\ (length l <= 1)%nat.
Proof.
  unfold g_result. destruct (wide g stol && qf_lt g qtol); [exists []; cbn; auto|].
  destruct (if Rlt_dec (g_q1 g) (g_q2 g) then (g_m1 g, g_q1 g) else (g_m2 g, g_q2 g)) as [sg qv].
  destruct (Req_EM_T (g_up g) up_in).
  - destruct (Rlt_dec (g_qup g) 0); cbn [snd]; [exists [g_up g]|exists []]; cbn; auto.
  - destruct (Req_EM_T (g_lo g) lo_in); [|exists []; cbn; auto].
    destruct (Rlt_dec (g_qlo g) 0); cbn [snd]; [exists [g_lo g]|exists []]; cbn; auto.
Qed.

Lemma ginv_points lo up qlo qup k g : lo < up -> ginv lo up qlo qup k g ->
  lo <= g_lo g /\ g_lo g < g_m1 g /\ g_m1 g < g_m2 g /\ g_m2 g < g_up g /\ g_up g <= up.
Proof.
  intros L I. pose proof (ginv_width L I) as W. pose proof gfac_range as G.
  destruct I as [A1 A2 _ _ _ A6 A7 _ _ _ _ _].
  set (w := g_up g - g_lo g) in *.
  assert (0 < gfac * w) by (apply Rmult_lt_0_compat; unfold w; lra).
  assert (gfac * w < (1 - gfac) * w) by (apply Rmult_lt_compat_r; unfold w; lra).
  assert ((1 - gfac) * w < w) by (rewrite <- (Rmult_1_l w) at 2; apply Rmult_lt_compat_r; unfold w; lra).
  unfold w in *. lra.
Qed.

(** With positive values of the quality function the sentinel -100 for an unknown end value
    never wins: with qf_tol < 1 the second way out of the loop is closed as long as one is there. *)
Lemma max4_ge a b c d : a <= max4 a b c d /\ b <= max4 a b c d /\ c <= max4 a b c d /\ d <= max4 a b c d.
Proof. unfold max4, Rmax. repeat destruct (Rle_dec _ _); lra. Qed.
Lemma min4_le a b c d : min4 a b c d <= a /\ min4 a b c d <= b /\ min4 a b c d <= c /\ min4 a b c d <= d.
Proof. unfold min4, Rmin. repeat destruct (Rle_dec _ _); lra. Qed.
Lemma min4_in a b c d : min4 a b c d = a \/ min4 a b c d = b \/ min4 a b c d = c \/ min4 a b c d = d.
Proof. unfold min4, Rmin. repeat destruct (Rle_dec _ _); auto. Qed.

Lemma qf_lt_pos g tol : 0 < g_q1 g -> tol <= 1 -> qf_lt g tol = true -> 0 < g_min g.
Proof.
  intros P T H. unfold qf_lt in H. pose proof (max4_ge (g_qlo g) (g_qup g) (g_q1 g) (g_q2 g)) as M. fold (g_max g) in M.
  destruct (Req_EM_T (g_max g) 0); [discriminate|]. destruct (Rlt_dec _ tol) as [Q|]; [|discriminate].
  destruct (Rlt_le_dec 0 (g_min g)) as [H0|H0]; [exact H0|exfalso].
  assert (Dv : g_min g / g_max g <= 0).
  { unfold Rdiv. rewrite <- (Rmult_0_l (/ g_max g)). apply Rmult_le_compat_r; [left; apply Rinv_0_lt_compat; lra|exact H0]. }
  lra.
Qed.

Lemma qf_ge_zero g : 0 < g_q1 g -> qf_ge g 0 = true.
Proof.
  intros P. unfold qf_ge. pose proof (max4_ge (g_qlo g) (g_qup g) (g_q1 g) (g_q2 g)) as M. fold (g_max g) in M.
  pose proof (min4_le (g_qlo g) (g_qup g) (g_q1 g) (g_q2 g)) as Mn. fold (g_min g) in Mn.
  destruct (Req_EM_T (g_max g) 0); [lra|].
  destruct (Rge_dec (1 - g_min g / g_max g) 0) as [|Q]; [reflexivity|exfalso]. apply Q. apply Rle_ge.
  assert (g_min g / g_max g <= 1); [|lra].
  apply Rmult_le_reg_r with (g_max g); [lra|]. unfold Rdiv. rewrite Rmult_assoc, Rinv_l, Rmult_1_r, Rmult_1_l; lra.
Qed.

(** The value of the result: not above any interior evaluation. [qup] and [qlo] are the values
    at the ends or negative (unknown). *)
Lemma g_result_best lo up qlo qup stol qtol k g : lo < up -> qtol <= 1 -> (forall x, 0 < f x) ->
  (qup < 0 \/ qup = f up) -> (qlo < 0 \/ qlo = f lo) ->
  ginv lo up qlo qup k g ->
  let s := fst (g_result f up lo stol qtol g) in
  f s <= Rmin (g_q1 g) (g_q2 g) /\
  (g_up g = up -> ~ (wide g stol && qf_lt g qtol = true) -> f s <= f up) /\
  (g_lo g = lo -> g_up g < up -> ~ (wide g stol && qf_lt g qtol = true) -> f s <= f lo).
Proof.
  intros L T P Ku Kl I. pose proof (ginv_points L I) as Pt.
  destruct I as [A1 A2 A3 A4 A5 A6 A7 A8 A9 A10 A11 A12]. cbv zeta.
  pose proof (P (g_m1 g)) as P1. pose proof (P (g_m2 g)) as P2. rewrite <- A3 in P1. rewrite <- A4 in P2.
  unfold g_result. destruct (wide g stol && qf_lt g qtol) eqn:E.
  - apply andb_true_iff in E. destruct E as [_ E]. pose proof (qf_lt_pos g P1 T E) as Mp.
    pose proof (min4_le (g_qlo g) (g_qup g) (g_q1 g) (g_q2 g)) as Mn. fold (g_min g) in Mn.
    pose proof (min4_in (g_qlo g) (g_qup g) (g_q1 g) (g_q2 g)) as Mi. fold (g_min g) in Mi.
    split; [|split; intros; congruence].
    cbn [fst].
    assert (V : f (if Req_EM_T (g_min g) (g_qlo g) then g_lo g
      else if Req_EM_T (g_min g) (g_q1 g) then g_m1 g
      else if Req_EM_T (g_min g) (g_q2 g) then g_m2 g
      else g_up g) = g_min g).
    { destruct (Req_EM_T (g_min g) (g_qlo g)) as [e|].
      { rewrite e. destruct A8 as [(B1 & B2)|(B1 & B2 & _)]; [|symmetry; exact B2].
        rewrite B1, B2. destruct Kl as [Kl|Kl]; [lra|symmetry; exact Kl]. }
      destruct (Req_EM_T (g_min g) (g_q1 g)) as [e|]; [rewrite e; symmetry; exact A3|].
      destruct (Req_EM_T (g_min g) (g_q2 g)) as [e|]; [rewrite e; symmetry; exact A4|].
      assert (e : g_min g = g_qup g) by (destruct Mi as [?|[?|[?|?]]]; congruence). rewrite e.
      destruct A9 as [(B1 & B2)|(B1 & B2 & _)]; [|symmetry; exact B2].
      rewrite B1, B2. destruct Ku as [Ku|Ku]; [lra|symmetry; exact Ku]. }
    rewrite V. apply Rmin_glb; lra.
  - set (sq := if Rlt_dec (g_q1 g) (g_q2 g) then (g_m1 g, g_q1 g) else (g_m2 g, g_q2 g)).
    assert (SQ : f (fst sq) = snd sq /\ snd sq = Rmin (g_q1 g) (g_q2 g)).
    { unfold sq. destruct (Rlt_dec (g_q1 g) (g_q2 g)); cbn [fst snd]; split; auto; [symmetry; apply Rmin_left; lra|symmetry; apply Rmin_right; lra]. }
    destruct sq as [sg qv]. cbn [fst snd] in SQ. destruct SQ as (S1 & S2). rewrite <- S2.
    destruct (Req_EM_T (g_up g) up) as [e|e].
    + assert (QT : exists qt ev, (if Rlt_dec (g_qup g) 0 then (f (g_up g), g_up g :: g_evals g) else (g_qup g, g_evals g)) = (qt, ev) /\ qt = f up).
      { destruct (Rlt_dec (g_qup g) 0); [eexists _, _; split; [reflexivity|rewrite e; reflexivity]|].
        eexists _, _; split; [reflexivity|]. destruct A9 as [(B1 & B2)|(B1 & _)]; [|lra].
        rewrite B2. destruct Ku; [lra|assumption]. }
      destruct QT as (qt & ev & -> & ->). cbn [fst].
      destruct (Rlt_dec (f up) qv); [rewrite e|]; (split; [lra|]; split; intros; lra).
    + destruct (Req_EM_T (g_lo g) lo) as [e2|e2].
      * assert (QT : exists qt ev, (if Rlt_dec (g_qlo g) 0 then (f (g_lo g), g_lo g :: g_evals g) else (g_qlo g, g_evals g)) = (qt, ev) /\ qt = f lo).
        { destruct (Rlt_dec (g_qlo g) 0); [eexists _, _; split; [reflexivity|rewrite e2; reflexivity]|].
          eexists _, _; split; [reflexivity|]. destruct A8 as [(B1 & B2)|(B1 & _)]; [|lra].
          rewrite B2. destruct Kl; [lra|assumption]. }
        destruct QT as (qt & ev & -> & ->). cbn [fst].
        destruct (Rlt_dec (f lo) qv); [rewrite e2|]; (split; [lra|]; split; intros; lra).
      * cbn [fst]. split; [lra|]. split; intros; congruence.
Qed.

End Golden.
