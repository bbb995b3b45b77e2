(** Proofs for C32 (exact arithmetic) and C47. *)
From Coq Require Import List Bool ZArith Reals Lra Lia.
From Flocq Require Import Core BinarySingleNaN.
From Verif Require Import Num VecModel VecSpec VecRed InitModel InitSpec InitProofs.
Import ListNotations.
Local Open Scope R_scope.

Section RR.
Variable lg : R -> R.
Local Notation O := (R_ops lg).

Lemma map2_map {A B C D} (f : B -> C -> D) (g : A -> B) (h : A -> C) (l : list A) :
  map2 f (map g l) (map h l) = map (fun a => f (g a) (h a)) l.
Proof. induction l; cbn; congruence. Qed.
Lemma map2_map_r {A C D} (f : A -> C -> D) (h : A -> C) (l : list A) :
  map2 f l (map h l) = map (fun a => f a (h a)) l.
Proof. induction l; cbn; congruence. Qed.

(** ** C32 *)
Lemma correct_slack_R mu move smin e : 0 < smin ->
  0 < move -> 
  correct_slack O mu move smin e = safe_value mu move smin e.
Proof.
  intros P M. unfold correct_slack, safe_value, too_small, sgn, sel. rewrite !tmin_R, !tmax_R.
  cbn [tlt t0 t1 tm1 topp tadd tsub tmul tdiv tabs R_ops].
  pose proof (Rmax_l 1 (Rabs (s_bound e))) as B.
  set (s := s_val e). set (bb := Rmax 1 (Rabs (s_bound e))) in *. set (q := Rmax (mu / s_mult e) smin).
  destruct (Rlt_dec s smin) as [L|L].
  - rewrite (Rlt_bool_false 0 (s + - smin)) by lra. rewrite (Rlt_bool_true (s + - smin) 0) by lra.
    rewrite (Rmin_left (-1) 0) by lra. rewrite Rlt_bool_true by lra. f_equal. ring.
  - assert (E : - Rmin (if Rlt_bool 0 (s + - smin) then 1 else if Rlt_bool (s + - smin) 0 then -1 else 0) 0 = 0).
    { rewrite (Rlt_bool_false (s + - smin) 0) by lra. destruct (Rlt_bool 0 (s + - smin)); [rewrite Rmin_right|rewrite Rmin_left]; lra. }
    rewrite E. rewrite !Rlt_bool_false by lra. rewrite (Rmax_left s 0) by lra. rewrite Rplus_0_l. apply Rmin_left. nra.
Qed.

Lemma smin_R eps dmin mu : 0 < eps -> 0 < mu -> s_min O eps dmin mu = eps * Rmin 1 mu /\ 0 < eps * Rmin 1 mu.
Proof.
  intros E M. unfold s_min. rewrite tmin_R. cbn [teq t0 t1 tmul R_ops].
  assert (0 < Rmin 1 mu) by (apply Rmin_glb_lt; lra). assert (0 < eps * Rmin 1 mu) by nra.
  split; [|assumption]. rewrite Req_bool_false by lra. reflexivity.
Qed.

Lemma safe_slack_R eps dmin mu move es : 0 < eps -> 0 < mu -> 0 < move ->
  snd (safe_slack O eps dmin mu move es) = map (safe_value mu move (eps * Rmin 1 mu)) es /\
  fst (safe_slack O eps dmin mu move es) = length (filter (fun e => Rlt_bool (s_val e) (eps * Rmin 1 mu)) es).
Proof.
  intros E M V. destruct (smin_R eps dmin mu E M) as [S1 S2]. destruct es as [|e0 es0]; [split; reflexivity|].
  unfold safe_slack. set (es := e0 :: es0). rewrite S1. set (smin := eps * Rmin 1 mu) in *.
  destruct (@fold_min_min lg (map s_val es)) as [A B]; [discriminate|].
  change (tlt O (fold_min O (map s_val es)) smin) with (Rlt_bool (fold_min O (map s_val es)) smin).
  destruct (Rlt_bool_spec (fold_min O (map s_val es)) smin) as [L|L]; cbn [fst snd].
  - split; [apply map_ext; intros e; now apply correct_slack_R|].
    f_equal. apply filter_ext. intros e. unfold too_small, sgn. rewrite tmin_R. cbn [tlt t0 t1 tm1 topp tadd R_ops].
    destruct (Rlt_bool_spec (s_val e) smin) as [K|K].
    + rewrite (Rlt_bool_false 0 (s_val e + - smin)) by lra. rewrite (Rlt_bool_true (s_val e + - smin) 0) by lra.
      rewrite (Rmin_left (-1) 0) by lra. apply Rlt_bool_true. lra.
    + rewrite (Rlt_bool_false (s_val e + - smin) 0) by lra. apply Rlt_bool_false.
      destruct (Rlt_bool 0 (s_val e + - smin)); [rewrite Rmin_right|rewrite Rmin_left]; lra.
  - assert (Q : forall e, In e es -> smin <= s_val e).
    { intros e He. eapply Rle_trans; [exact L|]. apply B. now apply in_map. }
    split.
    + apply map_ext_in. intros e He. unfold safe_value. destruct (Rlt_dec (s_val e) smin); [|reflexivity]. specialize (Q e He). lra.
    + symmetry. clear - Q. induction es as [|e l IH]; [reflexivity|]. cbn [filter].
      rewrite Rlt_bool_false by (apply Q; now left). apply IH. intros x Hx. apply Q. now right.
Qed.

(** ** C47 *)
Lemma amax_ge l x : In x l -> Rabs x <= blas_amax O l.
Proof.
  intros I. destruct (@blas_amax_max lg l) as [_ H]; [destruct l; [contradiction|discriminate]|]. apply H. now apply in_map.
Qed.

Section M.
Variables (kappa mu : R) (ms : list (mlt (T:=R))).
Hypotheses (Hk : 1 <= kappa) (Hmu : 0 < mu) (Hs : Forall (fun m => 0 < m_s m /\ m_c m = m_s m * m_z m) ms).
Definition lowb (m : mlt (T:=R)) := mu / (kappa * m_s m).
Definition uppb (m : mlt (T:=R)) := kappa * mu / m_s m.
Definition z' (m : mlt (T:=R)) := clamp (lowb m) (uppb m) (m_z m).

Lemma lowupp m : 0 < m_s m -> 0 < lowb m <= uppb m.
Proof.
  intros P. unfold lowb, uppb. split; [apply Rdiv_lt_0_compat; nra|].
  apply Rmult_le_reg_r with (kappa * m_s m); [nra|].
  replace (mu / (kappa * m_s m) * (kappa * m_s m)) with mu by (field; lra).
  replace (kappa * mu / m_s m * (kappa * m_s m)) with (kappa * kappa * mu) by (field; lra).
  assert (1 <= kappa * kappa) by nra. nra.
Qed.
Lemma inside_clamp m : lowb m <= m_z m <= uppb m -> z' m = m_z m.
Proof. intros [A B]. unfold z', clamp. rewrite Rmin_right by assumption. now apply Rmax_right. Qed.

Lemma correct_mult_R :
  let r := correct_mult O kappa mu ms in
  snd r = map z' ms /\ (forall m, In m ms -> Rabs (z' m - m_z m) <= fst r) /\
  (fst r = 0 \/ exists m, In m ms /\ Rabs (z' m - m_z m) = fst r).
Proof.
  assert (HS : forall m, In m ms -> 0 < m_s m /\ m_c m = m_s m * m_z m) by now apply Forall_forall.
  destruct (Nat.eq_dec (length ms) 0) as [Z|Z].
  { apply length_zero_iff_nil in Z. subst ms. unfold correct_mult. rewrite orb_true_r. cbn. split; [reflexivity|].
    split; [contradiction|now left]. }
  assert (NE : forall B (f : _ -> B), map f ms <> []).
  { intros B f H. apply (f_equal (@length B)) in H. rewrite map_length in H. cbn in H. lia. }
  assert (NI : exists m, In m ms) by (destruct ms as [|m ?]; [cbn in Z; lia|exists m; now left]).
  unfold correct_mult. cbv zeta. cbn [tlt t0 t1 tmul tdiv tsub tadd topp R_ops].
  rewrite (Rlt_bool_false kappa 1) by lra. destruct (Nat.eqb_spec (length ms) 0) as [|_]; [contradiction|].
  cbn [orb].
  assert (UP : forall m, In m ms -> kappa * mu * (1 / m_s m) = uppb m) by (intros m I; destruct (HS m I); unfold uppb; field; lra).
  assert (LO : forall m, In m ms -> 1 / kappa * mu * (1 / m_s m) = lowb m) by (intros m I; destruct (HS m I); unfold lowb; field; lra).
  destruct (@fold_min_min lg (map m_c ms)) as [C1 C2]; [apply NE|].
  match goal with |- context [if ?b then (0, map m_z ms) else _] => destruct b eqn:Q end.
  { (* nothing to do *)
    apply andb_true_iff in Q. destruct Q as [Q1 Q2]. apply negb_true_iff in Q1, Q2.
    assert (Q1' : blas_amax O (map m_c ms) <= kappa * mu) by (destruct (Rlt_bool_spec (kappa * mu) (blas_amax O (map m_c ms))); [discriminate|assumption]).
    assert (Q2' : 1 / kappa * mu <= fold_min O (map m_c ms)) by (destruct (Rlt_bool_spec (fold_min O (map m_c ms)) (1 / kappa * mu)); [discriminate|assumption]).
    clear Q1 Q2.
    assert (IN : forall m, In m ms -> z' m = m_z m).
    { intros m I. apply inside_clamp. destruct (HS m I) as [P E].
      assert (A1 : m_s m * m_z m <= kappa * mu).
      { eapply Rle_trans; [|exact Q1']. eapply Rle_trans; [apply Rle_abs|]. rewrite <- E. apply amax_ge. now apply in_map. }
      assert (A2 : 1 / kappa * mu <= m_s m * m_z m).
      { eapply Rle_trans; [exact Q2'|]. rewrite <- E. apply C2. now apply in_map. }
      unfold lowb, uppb. split.
      - apply Rmult_le_reg_l with (m_s m); [assumption|]. replace (m_s m * (mu / (kappa * m_s m))) with (1 / kappa * mu) by (field; lra). assumption.
      - apply Rmult_le_reg_l with (m_s m); [assumption|]. replace (m_s m * (kappa * mu / m_s m)) with (kappa * mu) by (field; lra). assumption. }
    cbn [fst snd]. split; [apply map_ext_in; intros m I; symmetry; now apply IN|]. split; [|now left].
    intros m I. rewrite IN by assumption. rewrite Rminus_diag_eq by reflexivity. rewrite Rabs_R0. lra. }
  clear Q.
  rewrite (map_ext_in _ (fun m => uppb m - m_z m)) by (intros m I; now rewrite UP).
  destruct (@fold_min_min lg (map (fun m => uppb m - m_z m) ms)) as [U1 U2]; [apply NE|].
  set (umin := fold_min O (map (fun m => uppb m - m_z m) ms)) in *. clearbody umin.
  rewrite !tmax_R.
  set (z1 := fun m : mlt (T:=R) => Rmin (uppb m) (m_z m)).
  match goal with |- context [map2 ?f ms ?l] => assert (Z1 : l = map z1 ms) end.
  { destruct (Rlt_bool_spec 0 (Rmax 0 (- umin))) as [L|L].
    - apply map_ext_in. intros m I. rewrite UP, tmin_R by assumption. unfold z1, Rmin.
      destruct (Rle_dec (uppb m - m_z m) 0), (Rle_dec (uppb m) (m_z m)); lra.
    - apply map_ext_in. intros m I. unfold z1. rewrite Rmin_right; [reflexivity|].
      assert (umin <= uppb m - m_z m) by (apply U2; now apply (in_map (fun m => uppb m - m_z m))).
      pose proof (Rmax_r 0 (- umin)). lra. }
  rewrite Z1. clear Z1. rewrite !map2_map_r.
  rewrite (map_ext_in (fun a => 1 / kappa * mu * (1 / m_s a) - z1 a) (fun m => lowb m - z1 m)) by (intros m I; now rewrite LO).
  destruct (@fold_max_max lg (map (fun m => lowb m - z1 m) ms)) as [V1 V2]; [apply NE|].
  set (vmax := fold_max O (map (fun m => lowb m - z1 m) ms)) in *. clearbody vmax.
  assert (ZZ : forall m, In m ms -> z' m = Rmax (lowb m) (z1 m)) by reflexivity.
  assert (UU : forall m, In m ms -> umin <= uppb m - m_z m) by (intros m I; apply U2; now apply (in_map (fun m => uppb m - m_z m))).
  assert (VV : forall m, In m ms -> lowb m - z1 m <= vmax) by (intros m I; apply V2; now apply (in_map (fun m => lowb m - z1 m))).
  cbn [fst snd]. split; [|split].
  - destruct (Rlt_bool_spec 0 (Rmax 0 vmax)) as [L|L].
    + apply map_ext_in. intros m I. rewrite LO, tmax_R, ZZ by assumption. unfold Rmax.
      destruct (Rle_dec (lowb m - z1 m) 0), (Rle_dec (lowb m) (z1 m)); lra.
    + apply map_ext_in. intros m I. rewrite ZZ by assumption. symmetry. apply Rmax_right. specialize (VV m I).
      pose proof (Rmax_r 0 vmax). lra.
  - intros m I. specialize (UU m I). specialize (VV m I). destruct (HS m I) as [P _]. pose proof (lowupp m P) as [W1 W2].
    rewrite ZZ by assumption. unfold z1 in *. 
    assert (D : Rabs (Rmax (lowb m) (Rmin (uppb m) (m_z m)) - m_z m) = Rmax (lowb m - Rmin (uppb m) (m_z m)) (Rmax 0 (m_z m - uppb m))).
    { destruct (Rle_dec (uppb m) (m_z m)) as [R1|R1].
      - rewrite (Rmin_left (uppb m)) by assumption. rewrite (Rmax_right (lowb m)) by lra. rewrite (Rmax_right 0) by lra.
        rewrite Rmax_right by lra. rewrite Rabs_left1; lra.
      - rewrite (Rmin_right (uppb m)) by lra. rewrite (Rmax_left 0) by lra.
        destruct (Rle_dec (lowb m) (m_z m)) as [R2|R2].
        + rewrite (Rmax_right (lowb m)) by lra. rewrite Rmax_right by lra. rewrite Rminus_diag_eq by reflexivity. apply Rabs_R0.
        + rewrite (Rmax_left (lowb m)) by lra. rewrite Rmax_left by lra. rewrite Rabs_right; lra. }
    rewrite D. repeat apply Rmax_lub.
    + eapply Rle_trans; [|apply Rmax_r]. eapply Rle_trans; [exact VV|apply Rmax_r].
    + eapply Rle_trans; [|apply Rmax_l]. apply Rmax_l.
    + eapply Rle_trans; [|apply Rmax_l]. eapply Rle_trans; [|apply Rmax_r]. lra.
  - destruct (Rle_dec vmax 0) as [V0|V0], (Rle_dec (- umin) 0) as [U0|U0].
    + left. rewrite (Rmax_left 0 vmax), (Rmax_left 0 (- umin)) by lra. apply Rmax_left. lra.
    + right. apply in_map_iff in U1. destruct U1 as (m & E & I). exists m. split; [assumption|].
      rewrite (Rmax_left 0 vmax), (Rmax_right 0 (- umin)), Rmax_left by lra. destruct (HS m I) as [P _]. pose proof (lowupp m P) as [W1 W2].
      unfold z', clamp. rewrite Rmin_left, Rmax_right by lra. rewrite Rabs_left; lra.
    + right. apply in_map_iff in V1. destruct V1 as (m & E & I). exists m. split; [assumption|].
      rewrite (Rmax_left 0 (- umin)), (Rmax_right 0 vmax), Rmax_right by lra. destruct (HS m I) as [P _]. pose proof (lowupp m P) as [W1 W2].
      unfold z1 in E. assert (Rmin (uppb m) (m_z m) = m_z m).
      { destruct (Rle_dec (uppb m) (m_z m)) as [R1|R1]; [rewrite Rmin_left in E by assumption; lra|]. apply Rmin_right. lra. }
      rewrite H in E. unfold z', clamp. rewrite H, Rmax_left by lra. rewrite Rabs_right; lra.
    + right. rewrite (Rmax_right 0 vmax), (Rmax_right 0 (- umin)) by lra.
      destruct (Rle_dec (- umin) vmax) as [W|W].
      * apply in_map_iff in V1. destruct V1 as (m & E & I). exists m. split; [assumption|].
        rewrite Rmax_right by lra. destruct (HS m I) as [P _]. pose proof (lowupp m P) as [W1 W2].
        unfold z1 in E. assert (Rmin (uppb m) (m_z m) = m_z m).
        { destruct (Rle_dec (uppb m) (m_z m)) as [R1|R1]; [rewrite Rmin_left in E by assumption; lra|]. apply Rmin_right. lra. }
        rewrite H in E. unfold z', clamp. rewrite H, Rmax_left by lra. rewrite Rabs_right; lra.
      * apply in_map_iff in U1. destruct U1 as (m & E & I). exists m. split; [assumption|].
        rewrite Rmax_left by lra. destruct (HS m I) as [P _]. pose proof (lowupp m P) as [W1 W2].
        unfold z', clamp. rewrite Rmin_left, Rmax_right by lra. rewrite Rabs_left; lra.
Qed.
End M.
End RR.
