From Coq Require Import List Bool ZArith Reals Lra Lia.
From Flocq Require Import Core Relative BinarySingleNaN.
From Verif Require Import Num PerturbModel PerturbSpec PerturbProofs PerturbLevels MuModel MuSpec.
Import ListNotations.
Open Scope R_scope.

(** results between two finite numbers are finite *)
Lemma fin_between x a b : nnan x = false -> nfin a = true -> nfin b = true -> key a <= key x <= key b -> nfin x = true.
Proof.
  intros N Fa Fb [H1 H2]. apply key_strict_finite; auto.
  apply key_finite_lt in Fa. apply key_finite_lt in Fb. apply Rabs_def2 in Fa. apply Rabs_def2 in Fb. lra.
Qed.

Lemma nmin_l_nan a b : nnan a = false -> nnan (nmin a b) = false /\ key (nmin a b) <= key a.
Proof.
  intros N. unfold nmin. destruct (nlt b a) eqn:E; [|split; auto; lra].
  apply nlt_iff in E. split; [tauto|lra].
Qed.

Section Mu.
Variable pw : num -> num -> num.
Variable o : mopts.
Hypothesis V : valid_mopts o.

Definition floor_of (c : call) : num := ndiv (nmin (c_tol c) (c_ctol c)) (nadd (barrier_factor o) none).

Lemma floor_spec c : valid_call c -> nfin (floor_of c) = true /\ 0 <= key (floor_of c) /\
  key (floor_of c) = fl (Rmin (key (c_tol c)) (key (c_ctol c)) / fl (key (barrier_factor o) + 1)).
Proof.
  intros (T1 & T2 & T3 & T4). destruct (v_factor _ V) as (B1 & B2 & B3).
  destruct (nadd_fin _ _ B1 none_fin) as [_ K]. rewrite key_none in K.
  assert (G : 1 <= key (nadd (barrier_factor o) none)).
  { rewrite K. rewrite <- key_none. apply fl_ge_key; [apply nfin_nnan, none_fin|]. rewrite key_none. lra. }
  pose proof (nfin_nnan _ T1) as N1.
  assert (M1 : key (nmin (c_tol c) (c_ctol c)) = Rmin (key (c_tol c)) (key (c_ctol c))) by (apply nmin_key; auto).
  assert (M2 : nfin (nmin (c_tol c) (c_ctol c)) = true).
  { apply fin_between with nzero (c_tol c); auto using nmin_nan. rewrite M1, key_nzero. split; [|apply Rmin_l].
    apply Rmin_glb; lra. }
  assert (M3 : 0 <= key (nmin (c_tol c) (c_ctol c))) by (rewrite M1; apply Rmin_glb; lra).
  destruct (ndiv_fin _ _ M2 B3 ltac:(lra)) as [D1 D2].
  assert (Q : 0 <= key (nmin (c_tol c) (c_ctol c)) / key (nadd (barrier_factor o) none) <= key (nmin (c_tol c) (c_ctol c))).
  { set (a := key (nmin _ _)) in *. set (b := key (nadd _ _)) in *.
    assert (0 < / b) by (apply Rinv_0_lt_compat; lra). assert (/ b <= 1) by (rewrite <- Rinv_1; apply Rinv_le; lra).
    unfold Rdiv. split; nra. }
  assert (E : 0 <= key (floor_of c) <= key (nmin (c_tol c) (c_ctol c))).
  { unfold floor_of. rewrite D2. split; [apply fl_pos; lra|]. apply fl_le_key; [apply nfin_nnan; auto|lra]. }
  split; [|split; [lra|]].
  - apply fin_between with nzero (nmin (c_tol c) (c_ctol c)); auto.
  - unfold floor_of. rewrite D2, K, M1. reflexivity.
Qed.

Lemma limit_eq c : valid_call c -> limit o c = Rmax (key (mu_target o)) (key (floor_of c)).
Proof. intros H. unfold limit. destruct (floor_spec c H) as (_ & _ & ->). reflexivity. Qed.

Lemma limit_pos c : valid_call c -> 0 <= limit o c.
Proof. intros H. unfold limit. destruct (v_target _ V). eapply Rle_trans; [|apply Rmax_l]. lra. Qed.

Lemma new_mu_spec c m : valid_call c -> nfin m = true -> 0 <= key m ->
  let m1 := new_mu pw o c m in
  nfin m1 = true /\ limit o c <= key m1 <= Rmax (limit o c) (key (nmul (lin_factor o) m)) /\
  key (nmul (lin_factor o) m) <= key m /\ 0 <= key m1 <= Rmax (limit o c) (key m).
Proof.
  intros C F P m1. destruct (v_lin _ V) as (L1 & L2). destruct (v_target _ V) as (T1 & T2).
  destruct (floor_spec c C) as (F1 & F2 & _). rewrite (limit_eq c C).
  destruct (nmul_fin _ _ L1 F) as [N1 K1].
  assert (K2 : key (nmul (lin_factor o) m) <= key m).
  { rewrite K1. apply fl_le_key; [apply nfin_nnan; auto|]. nra. }
  destruct (nmin_l_nan (nmul (lin_factor o) m) (pw m (power o)) N1) as [N2 K3].
  set (w := nmin _ _) in *.
  assert (N3 : nnan (nmax w (mu_target o)) = false) by (apply nmax_nan; auto using nfin_nnan).
  assert (E : key m1 = Rmax (Rmax (key w) (key (mu_target o))) (key (floor_of c))).
  { unfold m1, new_mu. fold w. fold (floor_of c). unfold nmax3. rewrite nmax_key; auto using nfin_nnan.
    rewrite nmax_key; auto using nfin_nnan. }
  assert (N : nnan m1 = false).
  { unfold m1, new_mu. fold w. fold (floor_of c). unfold nmax3. apply nmax_nan; auto using nfin_nnan. }
  set (t := key (mu_target o)) in *. set (f := key (floor_of c)) in *.
  assert (A : Rmax t f <= key m1 <= Rmax (Rmax t f) (key (nmul (lin_factor o) m))).
  { rewrite E. unfold Rmax. repeat destruct (Rle_dec _ _); lra. }
  assert (B : 0 <= Rmax t f) by (eapply Rle_trans; [|apply Rmax_l]; lra).
  assert (D : key m1 <= Rmax (Rmax t f) (key m)).
  { eapply Rle_trans; [apply A|]. apply Rle_max_compat_l. exact K2. }
  split; [|split; [exact A|split; [exact K2|lra]]].
  apply fin_between with nzero (nmax (nmax (mu_target o) (floor_of c)) m); auto.
  - unfold nmax. repeat destruct (nlt _ _); auto.
  - rewrite key_nzero. rewrite !nmax_key; auto using nfin_nnan, nmax_nan. fold t f. lra.
Qed.

Lemma new_tau_spec m : nfin m = true -> 0 <= key m ->
  nnan (new_tau o m) = false /\ key (tau_min o) <= key (new_tau o m) <= 1 /\
  (bpow radix2 (-53) <= key m -> key (new_tau o m) < 1).
Proof.
  intros F P. destruct (v_tau _ V) as (T1 & T2).
  destruct (nsub_fin _ _ none_fin F) as [N K]. rewrite key_none in K.
  unfold new_tau. split; [apply nmax_nan; auto using nfin_nnan|].
  rewrite nmax_key; auto using nfin_nnan. split; [split; [apply Rmax_l|]|].
  - apply Rmax_lub; [lra|]. rewrite K, <- key_none. apply fl_le_key; [apply nfin_nnan, none_fin|]. rewrite key_none; lra.
  - intros L. apply Rmax_lub_lt; [lra|]. rewrite K.
    assert (G : generic_format radix2 fexp (1 - bpow radix2 (-53))).
    { replace (1 - bpow radix2 (-53)) with (F2R (Float radix2 (2 ^ 53 - 1) (-53))).
      - apply (generic_format_FLT radix2 (-1074) 53). eexists; [reflexivity| |]; simpl; lia.
      - unfold F2R. cbn [Fnum Fexp]. rewrite minus_IZR. change (IZR (2 ^ 53)) with (bpow radix2 53).
        rewrite Rmult_minus_distr_r, <- bpow_plus. change (bpow radix2 (53 + -53)) with 1. lra. }
    assert (R1 : rnd (1 - bpow radix2 (-53)) = 1 - bpow radix2 (-53)).
    { unfold rnd. apply round_generic; auto with typeclass_instances. }
    pose proof (bpow_gt_0 radix2 (-53)) as B0.
    assert (B1 : bpow radix2 (-53) <= 1) by (change 1 with (bpow radix2 0); apply bpow_le; lia).
    assert (B2 : 1 < big) by (change 1 with (bpow radix2 0); apply bpow_lt; lia).
    assert (R2 : fl (1 - bpow radix2 (-53)) = 1 - bpow radix2 (-53)).
    { rewrite fl_small; rewrite R1; auto. rewrite Rabs_pos_eq; lra. }
    apply Rle_lt_trans with (fl (1 - bpow radix2 (-53))); [apply fl_le; lra|]. rewrite R2. lra.
Qed.

Ltac quad a b c d :=
  match goal with |- context[match (if ?x then ?u else ?v) with pair _ _ => _ end] => destruct (if x then u else v) as [[[a b] c] d] end.

(** ** The loop *)
Notation good := (MuSpec.good o).

Lemma init_good r : good (mu_initialize o r).
Proof. destruct (v_init _ V). split; [auto|]. split; [simpl; lra|reflexivity]. Qed.

(** every end of the loop *)
Lemma loop_range c : valid_call c -> forall fuel s err kappa k tiny done p r, good s ->
  let s' := state_of (update_loop pw o fuel c s err kappa k tiny done p r) in
  good s' /\ (mu s' = mu s \/ (limit o c <= key (mu s') <= Rmax (limit o c) (key (mu s)))).
Proof.
  intros C. induction fuel as [|f IH]; intros s err kappa k tiny done p r G; cbn [update_loop].
  { destruct (_ && _ && _); simpl; split; auto. }
  destruct (_ && _ && _); [|simpl; split; auto].
  destruct (negb (negb (neqb (mu s) (new_mu pw o c (mu s)))) && tiny); [simpl; split; auto|].
  destruct G as (G1 & G2 & G3). destruct (new_mu_spec c (mu s) C G1 G2) as (A1 & A2 & A3 & A4).
  set (m := new_mu pw o c (mu s)) in *.
  quad err1 kappa1 k1 done1.
  set (s1 := MState m _ _ _).
  assert (G' : good s1) by (split; [|split]; simpl; auto; lra).
  match goal with |- context[update_loop pw o f c s1 ?a ?b ?d ?e ?g ?h ?i] => specialize (IH s1 a b d e g h i G') end.
  destruct IH as (I1 & I2). split; [exact I1|]. right.
  destruct I2 as [->|I2].
  - simpl. split; [lra|]. eapply Rle_trans; [apply A4|lra].
  - change (mu s1) with m in I2. split; [lra|]. eapply Rle_trans; [apply I2|]. apply Rmax_lub; [apply Rmax_l|]. lra.
Qed.

(** a pass changes mu by at least one unit in the last place *)
Definition rank (x : num) : Z := Zfloor (key x * bpow radix2 1074).
Lemma rank_lt x y : nfin x = true -> nfin y = true -> 0 <= key x < key y -> (rank x < rank y)%Z.
Proof.
  intros Fx Fy [P L]. unfold rank.
  pose proof (succ_le_lt radix2 fexp (key x) (key y) (fmt_key x Fx) (fmt_key y Fy) L) as S0.
  rewrite succ_eq_pos in S0 by lra.
  assert (U : bpow radix2 (-1074) <= ulp radix2 fexp (key x)).
  { destruct (Req_dec (key x) 0) as [E|E].
    - rewrite E. pose proof (ulp_FLT_small radix2 (-1074) 53 0) as U. rewrite Rabs_R0 in U. specialize (U (bpow_gt_0 _ _)). change (ulp radix2 fexp 0) with (ulp radix2 (FLT_exp (-1074) 53) 0). rewrite U. lra.
    - rewrite ulp_neq_0 by lra. apply bpow_le. unfold cexp, SpecFloat.fexp, SpecFloat.emin. lia. }
  assert (E : bpow radix2 (-1074) * bpow radix2 1074 = 1) by (rewrite <- bpow_plus; reflexivity).
  pose proof (bpow_gt_0 radix2 1074).
  assert (Q : (Zfloor (key x * bpow radix2 1074) + 1 <= Zfloor (key y * bpow radix2 1074))%Z); [|lia].
  apply Zfloor_lub. rewrite plus_IZR. pose proof (Zfloor_lb (key x * bpow radix2 1074)). nra.
Qed.
Lemma rank_pos x : 0 <= key x -> (0 <= rank x)%Z.
Proof. intros. apply Zfloor_lub. pose proof (bpow_gt_0 radix2 1074). simpl. nra. Qed.

(** An abstract measure of the remaining passes *)
Section Measure.
Variable c : call.
Hypothesis C : valid_call c.
Variable left : num -> Z.
Hypothesis left_pos : forall m, nfin m = true -> limit o c <= key m -> (0 <= left m)%Z.
Hypothesis left_dec : forall m, nfin m = true -> limit o c <= key m -> key (new_mu pw o c m) < key m ->
  (left (new_mu pw o c m) < left m)%Z.

Lemma loop_ends_above : forall fuel s err kappa k tiny done p r, good s -> limit o c <= key (mu s) ->
  (left (mu s) + 1 < Z.of_nat fuel)%Z ->
  let r' := update_loop pw o fuel c s err kappa k tiny done p r in
  finished r' /\ (Z.of_nat (passes_of r') <= Z.of_nat p + left (mu s) + 1)%Z.
Proof.
  induction fuel as [|f IH]; intros s err kappa k tiny done p r G L H.
  { destruct G as (G1 & _). specialize (left_pos _ G1 L). lia. }
  pose proof G as (G1 & G2 & G3). pose proof (left_pos _ G1 L) as LP.
  cbn [update_loop]. destruct (_ && _ && _); [|simpl; split; [constructor|lia]].
  destruct (negb (negb (neqb (mu s) (new_mu pw o c (mu s)))) && tiny); [simpl; split; [constructor|lia]|].
  destruct (new_mu_spec c (mu s) C G1 G2) as (A1 & A2 & A3 & A4).
  rewrite (Rmax_right (limit o c) (key (mu s))) in A4 by lra.
  set (m := new_mu pw o c (mu s)) in *.
  set (s1 := MState m (new_tau o m) (initialized s) (first_resto s)).
  assert (G' : good s1) by (split; [|split]; simpl; auto; lra).
  assert (ST : forall e kp kk rs, finished (update_loop pw o f c s1 e kp kk false true (S p) rs) /\
     passes_of (update_loop pw o f c s1 e kp kk false true (S p) rs) = S p).
  { intros. destruct f; cbn [update_loop]; rewrite andb_false_r; simpl; auto. }
  destruct (neqb (mu s) m) eqn:E; cbn [negb].
  - destruct (initialized s && negb (fast o)); cbv iota;
      match goal with |- context[update_loop pw o f c s1 ?a ?b ?d _ _ _ ?i] => destruct (ST a b d i) as [-> ->] || (destruct (ST a b d i) as [X1 X2]; rewrite X2; split; [exact X1|]) end; lia.
  - assert (D : key m < key (mu s)).
    { apply neqb_false in E; auto using nfin_nnan. lra. }
    pose proof (left_dec _ G1 L D) as LD. fold m in LD. assert (Lm : limit o c <= key m) by lra.
    destruct (initialized s && negb (fast o)); cbv iota zeta.
    + match goal with |- context[update_loop pw o f c s1 ?a ?b ?d _ _ _ ?i] => destruct (ST a b d i) as [X1 X2]; rewrite X2; split; [exact X1|] end; lia.
    + match goal with |- context[update_loop pw o f c s1 ?a ?b ?d ?e ?g ?h ?i] => destruct (IH s1 a b d e g h i G' Lm) as [X1 X2] end.
      * change (mu s1) with m. lia.
      * split; [exact X1|]. change (mu s1) with m in X2. lia.
Qed.
End Measure.

(** the first pass reaches the region above the limit *)
Lemma loop_ends c left : valid_call c ->
  (forall m, nfin m = true -> limit o c <= key m -> (0 <= left m)%Z) ->
  (forall m, nfin m = true -> limit o c <= key m -> key (new_mu pw o c m) < key m -> (left (new_mu pw o c m) < left m)%Z) ->
  forall s B, good s ->
  (forall m, nfin m = true -> limit o c <= key m <= Rmax (limit o c) (key (mu s)) -> (left m <= B)%Z) -> (0 <= B)%Z ->
  forall fuel err kappa k tiny done p r, (B + 2 < Z.of_nat fuel)%Z ->
  let r' := update_loop pw o fuel c s err kappa k tiny done p r in
  finished r' /\ (Z.of_nat (passes_of r') <= Z.of_nat p + B + 2)%Z.
Proof.
  intros C LP LD s B G HB B0 fuel err kappa k tiny done p r H.
  destruct fuel as [|f]; [lia|]. pose proof G as (G1 & G2 & G3).
  cbn [update_loop]. destruct (_ && _ && _); [|simpl; split; [constructor|lia]].
  destruct (negb (negb (neqb (mu s) (new_mu pw o c (mu s)))) && tiny); [simpl; split; [constructor|lia]|].
  destruct (new_mu_spec c (mu s) C G1 G2) as (A1 & A2 & A3 & A4).
  set (m := new_mu pw o c (mu s)) in *.
  quad err1 kappa1 k1 done1.
  set (s1 := MState m _ _ _).
  assert (G' : good s1) by (split; [|split]; simpl; auto; lra).
  assert (Lm : (left m <= B)%Z) by (apply HB; auto; lra).
  match goal with |- context[update_loop pw o f c s1 ?a ?b ?d ?e ?g ?h ?i] =>
    destruct (loop_ends_above c C left LP LD f s1 a b d e g h i G') as [X1 X2] end.
  - simpl. lra.
  - change (mu s1) with m. lia.
  - split; [exact X1|]. change (mu s1) with m in X2. lia.
Qed.

Lemma rank_dec c m : valid_call c -> nfin m = true -> limit o c <= key m -> key (new_mu pw o c m) < key m ->
  (rank (new_mu pw o c m) < rank m)%Z.
Proof.
  intros C F L D. pose proof (limit_pos c C).
  destruct (new_mu_spec c m C F ltac:(lra)) as (A1 & A2 & A3 & A4). apply rank_lt; auto. lra.
Qed.

Lemma rank_le x r : key x <= r -> (rank x <= Zfloor (r * bpow radix2 1074))%Z.
Proof. intros H. apply Zfloor_le. apply Rmult_le_compat_r; [|exact H]. left; apply bpow_gt_0. Qed.

(** ** The logarithmic bound *)
Definition q : R := key (lin_factor o) * (1 + bpow radix2 (-53)).

Lemma fl_rel r : bpow radix2 (-1022) <= r -> fl r <= r * (1 + bpow radix2 (-53)).
Proof.
  intros H. pose proof (bpow_gt_0 radix2 (-1022)) as P0.
  assert (R0 : rnd r <= r * (1 + bpow radix2 (-53))).
  { pose proof (relative_error_N_FLT radix2 (-1074) 53 ltac:(lia) (fun x => negb (Z.even x)) r) as E.
    rewrite Rabs_pos_eq in E by lra. specialize (E H).
    apply Rabs_le_inv in E. unfold rnd. change (round radix2 fexp (round_mode mode_NE) r) with (round radix2 (FLT_exp (-1074) 53) ZnearestE r) in *.
    replace (/ 2 * bpow radix2 (- (53) + 1)) with (bpow radix2 (-53)) in E.
    - lra.
    - change (-(53)+1)%Z with (-53 + 1)%Z. rewrite bpow_plus. change (bpow radix2 1) with 2. lra. }
  unfold fl. apply Rmax_lub.
  - pose proof big_pos. pose proof (bpow_gt_0 radix2 (-53)). nra.
  - eapply Rle_trans; [apply Rmin_r|exact R0].
Qed.

Lemma new_mu_q c m : valid_call c -> nfin m = true -> 0 <= key m -> bpow radix2 (-1022) <= limit o c ->
  key (new_mu pw o c m) <= Rmax (limit o c) (q * key m).
Proof.
  intros C F P N. destruct (v_lin _ V) as (L1 & L2).
  destruct (new_mu_spec c m C F P) as (A1 & A2 & A3 & A4). eapply Rle_trans; [apply A2|].
  destruct (nmul_fin _ _ L1 F) as [_ K]. rewrite K.
  apply Rmax_lub; [apply Rmax_l|].
  destruct (Rle_dec (bpow radix2 (-1022)) (key (lin_factor o) * key m)) as [G|G].
  - eapply Rle_trans; [|apply Rmax_r]. unfold q. pose proof (fl_rel _ G). lra.
  - eapply Rle_trans; [|apply Rmax_l]. eapply Rle_trans; [|exact N].
    assert (GB : generic_format radix2 fexp (bpow radix2 (-1022))) by (apply generic_format_bpow; unfold SpecFloat.fexp, SpecFloat.emin; lia).
    assert (R1 : rnd (bpow radix2 (-1022)) = bpow radix2 (-1022)) by (unfold rnd; apply round_generic; auto with typeclass_instances).
    pose proof (bpow_gt_0 radix2 (-1022)).
    assert (R2 : fl (bpow radix2 (-1022)) = bpow radix2 (-1022)).
    { rewrite fl_small; rewrite R1; auto. rewrite Rabs_pos_eq by lra. apply bpow_lt. lia. }
    rewrite <- R2. apply fl_le. lra.
Qed.

(** [n] passes suffice if q^n * mu <= limit *)
Lemma loop_ends_log c : valid_call c -> bpow radix2 (-1022) <= limit o c -> 
  forall n s, good s -> q ^ n * key (mu s) <= limit o c ->
  forall fuel err kappa k tiny done p r, (n + 1 < fuel)%nat ->
  let r' := update_loop pw o fuel c s err kappa k tiny done p r in
  finished r' /\ (passes_of r' <= p + n + 2)%nat.
Proof.
  intros C N. induction n as [|n IH]; intros s G Q fuel err kappa k tiny done p r H.
  - (* at or below the limit *)
    rewrite Rmult_1_l in Q || (simpl in Q; rewrite Rmult_1_l in Q).
    destruct fuel as [|f]; [lia|]. pose proof G as (G1 & G2 & G3).
    cbn [update_loop]. destruct (_ && _ && _); [|simpl; split; [constructor|lia]].
    destruct (negb (negb (neqb (mu s) (new_mu pw o c (mu s)))) && tiny); [simpl; split; [constructor|lia]|].
    destruct (new_mu_spec c (mu s) C G1 G2) as (A1 & A2 & A3 & A4).
    rewrite Rmax_left in A4 by lra. set (m := new_mu pw o c (mu s)) in *.
    assert (Em : key m = limit o c) by lra.
    quad err1 kappa1 k1 done1.
    destruct f as [|f]; [lia|]. cbn [update_loop]. destruct (_ && _ && _); [|simpl; split; [constructor|lia]].
    cbn [mu]. destruct (new_mu_spec c m C A1 ltac:(lra)) as (D1 & D2 & D3 & D4).
    rewrite Rmax_left in D4 by lra. set (m2 := new_mu pw o c m) in *.
    assert (Ee : neqb m m2 = true) by (apply neqb_iff; repeat split; auto using nfin_nnan; lra).
    rewrite Ee. cbn [negb andb].
    assert (ST : forall s2 e kp kk rs pp, finished (update_loop pw o f c s2 e kp kk false true pp rs) /\
       passes_of (update_loop pw o f c s2 e kp kk false true pp rs) = pp).
    { intros. destruct f; cbn [update_loop]; rewrite andb_false_r; simpl; auto. }
    destruct (initialized _ && negb (fast o)); cbv iota;
    match goal with |- context[update_loop pw o f c ?s2 ?a ?b ?d _ _ ?h ?i] => destruct (ST s2 a b d i h) as [X1 X2]; rewrite X2; split; [exact X1|] end; lia.
  - destruct fuel as [|f]; [lia|]. pose proof G as (G1 & G2 & G3).
    cbn [update_loop]. destruct (_ && _ && _); [|simpl; split; [constructor|lia]].
    destruct (negb (negb (neqb (mu s) (new_mu pw o c (mu s)))) && tiny); [simpl; split; [constructor|lia]|].
    destruct (new_mu_spec c (mu s) C G1 G2) as (A1 & A2 & A3 & A4).
    pose proof (new_mu_q c (mu s) C G1 G2 N) as A5.
    set (m := new_mu pw o c (mu s)) in *.
    quad err1 kappa1 k1 done1.
    set (s1 := MState m _ _ _).
    assert (G' : good s1) by (split; [|split]; simpl; auto; lra).
    destruct (v_lin _ V) as (L1 & L2). pose proof (bpow_gt_0 radix2 (-53)) as B0.
    assert (q0 : 0 < q) by (unfold q; nra).
    assert (q1 : q <= 1).
    { unfold q.
      assert (G1' : generic_format radix2 fexp 1).
      { change 1 with (bpow radix2 0). apply generic_format_bpow. unfold SpecFloat.fexp, SpecFloat.emin; lia. }
      pose proof (pred_ge_gt radix2 fexp (key (lin_factor o)) 1 (fmt_key _ L1) G1' (proj2 L2)) as PG.
      assert (PE : pred radix2 fexp 1 = 1 - bpow radix2 (-53)).
      { change 1 with (bpow radix2 0) at 1. rewrite pred_bpow. reflexivity. }
      rewrite PE in PG. nra. }
    assert (qn : forall j, 0 < q ^ j <= 1).
    { intros j. split; [apply pow_lt; auto|]. clear - q0 q1. induction j; simpl; [lra|].
      assert (0 < q ^ j) by (apply pow_lt; auto). nra. }
    assert (Q' : q ^ n * key (mu s1) <= limit o c).
    { change (mu s1) with m. pose proof (limit_pos c C). destruct (qn n).
      unfold Rmax in A5. destruct (Rle_dec _ _).
      - simpl in Q. assert (q ^ n * key m <= q ^ n * (q * key (mu s))) by (apply Rmult_le_compat_l; lra). lra.
      - nra. }
    match goal with |- context[update_loop pw o f c s1 ?a ?b ?d ?e ?g ?h ?i] =>
      destruct (IH s1 G' Q' f a b d e g h i) as [X1 X2] end; [lia|].
    split; [exact X1|]. lia.
Qed.


(** ** What holds when an update ends *)
Definition settled (c : call) (s : mstate) (p : nat) : Prop :=
  (initialized s = true /\ fast o = false /\ p = 1%nat) \/
  (exists m, neqb m (mu s) = true /\ new_mu pw o c m = mu s) \/
  nle (c_err c p) (nmul (barrier_factor o) (mu s)) = false.

Definition linv (c : call) (s : mstate) (err kappa : num) (k : nat) (tiny done : bool) (p r : nat) : Prop :=
  (done = false -> err = c_err c p /\ kappa = nmul (barrier_factor o) (mu s) /\ k = S p /\ r = 0%nat) /\
  (done = true -> settled c s p /\ tiny = false /\ (r <= 1)%nat /\
     (ngt (c_err c p) (nmul (barrier_factor o) (mu s)) = true -> initialized s && negb (fast o) = false ->
      (exists m, neqb m (mu s) = true /\ new_mu pw o c m = mu s) \/ r = 1%nat)) /\
  (initialized s = true -> fast o = false -> done = false -> p = 0%nat) /\
  (tiny = true -> p = 0%nat).

Lemma loop_exit c : forall fuel s err kappa k tiny done p r,
  first_resto s = false -> linv c s err kappa k tiny done p r ->
  match update_loop pw o fuel c s err kappa k tiny done p r with
  | Return s' p' r' => (r' <= 1)%nat /\
      ((initialized s = true /\ fast o = false /\ p' = 1%nat) \/
       (exists m, neqb m (mu s') = true /\ new_mu pw o c m = mu s') \/
       nle (c_err c p') (nmul (barrier_factor o) (mu s')) = false)
  | TinyStep s' p' => p' = 0%nat /\ tiny = true /\ s' = s /\ neqb (mu s) (new_mu pw o c (mu s)) = true
  | Loop _ => True
  end.
Proof.
  induction fuel as [|f IH]; intros s err kappa k tiny done p r FR I0; pose proof I0 as (I1 & I2 & I3 & I4).
  { cbn [update_loop]. destruct (_ && _ && _) eqn:E; [exact Logic.I|]. cbn [mu].
    rewrite FR, andb_true_r in E. apply andb_false_iff in E. destruct E as [E|E].
    - destruct done.
      + destruct (I2 eq_refl) as (S1 & _ & S2 & _). split; auto.
      + destruct (I1 eq_refl) as (-> & -> & -> & ->). split; auto. apply orb_false_iff in E. tauto.
    - apply negb_false_iff in E. subst done. destruct (I2 eq_refl) as (S1 & _ & S2 & _). split; auto. }
  cbn [update_loop]. destruct (_ && _ && _) eqn:E.
  2: { cbn [mu]. rewrite FR, andb_true_r in E. apply andb_false_iff in E. destruct E as [E|E].
    - destruct done.
      + destruct (I2 eq_refl) as (S1 & _ & S2 & _). split; auto.
      + destruct (I1 eq_refl) as (-> & -> & -> & ->). split; auto. apply orb_false_iff in E. tauto.
    - apply negb_false_iff in E. subst done. destruct (I2 eq_refl) as (S1 & _ & S2 & _). split; auto. }
  rewrite FR, andb_true_r in E. apply andb_true_iff in E. destruct E as [E Ed]. apply negb_true_iff in Ed. subst done.
  destruct (I1 eq_refl) as (-> & -> & -> & ->).
  set (m := new_mu pw o c (mu s)) in *.
  destruct (neqb (mu s) m) eqn:Ch; cbn [negb andb].
  - destruct tiny; [split; [auto|]; split; auto|]. 
    set (s1 := MState m _ _ _).
    assert (H : forall rs, (rs <= 1)%nat -> linv c s1 (c_err c p) (nmul (barrier_factor o) (mu s)) (S p) false true (S p) rs).
    { intros rs Hr. split; [discriminate|]. split.
      - intros _. split; [right; left; exists (mu s); auto|]. split; auto. split; auto. intros _ _. left. exists (mu s). auto.
      - split; discriminate. }
    destruct (initialized s && negb (fast o)); cbv iota; rewrite andb_false_r.
    + specialize (IH s1 (c_err c p) (nmul (barrier_factor o) (mu s)) (S p) false true (S p) 0%nat FR (H _ (le_S _ _ (le_n _)))).
      destruct (update_loop _ _ _ _ _ _ _ _ _ _ _ _); auto. destruct IH as (_ & IH & _). discriminate.
    + specialize (IH s1 (c_err c p) (nmul (barrier_factor o) (mu s)) (S p) false true (S p) 0%nat FR (H _ (le_S _ _ (le_n _)))).
      destruct (update_loop _ _ _ _ _ _ _ _ _ _ _ _); auto. destruct IH as (_ & IH & _). discriminate.
  - set (s1 := MState m _ _ _).
    destruct (initialized s && negb (fast o)) eqn:M; cbv iota zeta.
    + apply andb_true_iff in M. destruct M as [M1 M2]. apply negb_true_iff in M2. specialize (I3 M1 M2 eq_refl). subst p.
      assert (H : linv c s1 (c_err c 0) (nmul (barrier_factor o) (mu s)) 1 false true 1 1).
      { split; [discriminate|]. split.
        - intros _. split; [left; auto|]. split; auto. 
        - split; discriminate. }
      specialize (IH s1 _ _ _ _ _ _ _ FR H). cbn [andb] in *.
      destruct (update_loop _ _ _ _ _ _ _ _ _ _ _ _); auto. destruct IH as (_ & IH & _). discriminate.
    + set (e := c_err c (S p)). set (kap := nmul (barrier_factor o) m).
      assert (H : linv c s1 e kap (S (S p)) false (ngt e kap) (S p) (if ngt e kap && true then 1%nat else 0%nat)).
      { split; [intros G; rewrite G; simpl; auto|]. split.
        - intros G. rewrite G. split.
          + right; right. cbn [mu]. apply Bool.not_true_is_false. intros L. unfold ngt in G. apply nlt_iff in G. apply nle_iff in L. destruct G as (_ & _ & G). destruct L as (_ & _ & L). unfold e, kap, s1 in *. cbn [mu] in L. lra.
          + split; auto.
        - split; [|discriminate]. change (initialized s1) with (initialized s). intros A B. rewrite A, B in M. discriminate. }
      specialize (IH s1 _ _ _ _ _ _ _ FR H).
      destruct (update_loop _ _ _ _ _ _ _ _ _ _ _ _); auto. destruct IH as (_ & IH & _). discriminate.
Qed.
End Mu.
