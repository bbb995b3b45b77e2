(** C80: the golden section search of the quality function oracle; C81: the LOQO rule. *)
From Coq Require Import Reals List Bool Arith Lra Lia.
From Verif Require Import AmuModel AmuSpec AmuProofs3.
Import ListNotations.
Open Scope R_scope.

(** C80: the sigma found lies in the interval searched; so do all points at which the quality
    function is evaluated, of which there are at most three more than
    quality_function_max_section_steps. *)
Theorem C80_golden_range : forall f n lo up qlo qup stol qtol, lo < up ->
  let r := golden f n up qup lo qlo stol qtol in
  lo <= fst r <= up /\
  (forall x, In x (snd r) -> lo <= x <= up) /\
  (length (snd r) <= n + 3)%nat.
Proof.
  intros f n lo up qlo qup stol qtol L r. unfold r, golden. clear r.
  destruct (@g_loop_inv f lo up qlo qup stol qtol L n 0 _ (g_init_inv f qlo qup L)) as (j & J1 & I & _ & _).
  set (g := g_loop f n stol qtol (g_init f up qup lo qlo)) in *. clearbody g.
  pose proof (ginv_points L I) as P.
  pose proof (g_result_point f up lo stol qtol g) as Q.
  destruct (g_result_evals f up lo stol qtol g) as (l & El & Ll).
  split; [|split].
  - destruct Q as [<-|[<-|[<-|[<-|[]]]]]; lra.
  - intros x Hx. unfold g_result in Hx.
    assert (In' : forall x, In x (g_evals g) -> lo <= x <= up) by (intros y Hy; destruct (gi_in I y Hy); lra).
    destruct (wide g stol && qf_lt g qtol); [exact (In' x Hx)|].
    destruct (if Rlt_dec (g_q1 g) (g_q2 g) then (g_m1 g, g_q1 g) else (g_m2 g, g_q2 g)) as [sg qv].
    destruct (Req_EM_T (g_up g) up).
    + destruct (Rlt_dec (g_qup g) 0); [destruct Hx as [<-|Hx]; [lra|]|]; exact (In' x Hx).
    + destruct (Req_EM_T (g_lo g) lo); [|exact (In' x Hx)].
      destruct (Rlt_dec (g_qlo g) 0); [destruct Hx as [<-|Hx]; [lra|]|]; exact (In' x Hx).
  - rewrite El, app_length, (gi_len I). lia.
Qed.

(** C80: precision. If the quality function is unimodal, with minimiser m, the sigma found is
    within the width of the last bracket from m, and so, unless the function value tolerance
    stopped the search, within quality_function_section_sigma_tol times the upper end, or within
    the original width times ((sqrt 5 - 1) / 2)^max_steps. *)
Theorem C80_golden_precision : forall f n lo up qlo qup stol m, lo < up ->
  0 <= stol -> 0 <= up -> (forall x, 0 < f x) -> unimodal f lo up m ->
  Rabs (fst (golden f n up qup lo qlo stol 0) - m) <=
    Rmax (stol * up) (((sqrt 5 - 1) / 2) ^ n * (up - lo)).
Proof.
  intros f n lo up qlo qup stol m L St Up P U. unfold golden.
  destruct (@g_loop_inv f lo up qlo qup stol 0 L n 0 _ (g_init_inv f qlo qup L)) as (j & J1 & I & St' & Um).
  assert (M : lo <= m <= up) by (destruct U; assumption).
  specialize (Um m U M).
  set (g := g_loop f n stol 0 (g_init f up qup lo qlo)) in *. clearbody g.
  pose proof (ginv_points L I) as Pt.
  pose proof (g_result_point f up lo stol 0 g) as Q.
  assert (W : Rabs (fst (g_result f up lo stol 0 g) - m) <= g_up g - g_lo g).
  { apply Rabs_le. destruct Q as [<-|[<-|[<-|[<-|[]]]]]; lra. }
  eapply Rle_trans; [exact W|].
  destruct St' as [->|T].
  - eapply Rle_trans; [|apply Rmax_r]. rewrite (gi_w I). cbn [Nat.add].
    replace (1 - gfac) with ((sqrt 5 - 1) / 2) by (unfold gfac; field). lra.
  - eapply Rle_trans; [|apply Rmax_l].
    assert (QG : qf_ge g 0 = true) by (apply qf_ge_zero; rewrite (gi_q1 I); apply P).
    rewrite QG, andb_true_r in T.
    assert (N : ~ (g_up g - g_lo g >= stol * g_up g)) by (rewrite <- wide_iff, T; discriminate).
    apply Rle_trans with (stol * g_up g); [lra|]. apply Rmult_le_compat_l; [exact St|]. lra.
Qed.

(** C80: the sigma found is the best of all points evaluated in the search, if the values passed
    for the ends are the values there (or negative: unknown). *)
Theorem C80_golden_best : forall f n lo up qlo qup stol qtol, lo < up -> qtol <= 1 ->
  (forall x, 0 < f x) -> (qup < 0 \/ qup = f up) -> (qlo < 0 \/ qlo = f lo) ->
  let r := golden f n up qup lo qlo stol qtol in
  forall x, In x (snd r) -> f (fst r) <= f x.
Proof.
  intros f n lo up qlo qup stol qtol L T P Ku Kl r x Hx. unfold r, golden in *. clear r.
  destruct (@g_loop_inv f lo up qlo qup stol qtol L n 0 _ (g_init_inv f qlo qup L)) as (j & J1 & I & _ & _).
  set (g := g_loop f n stol qtol (g_init f up qup lo qlo)) in *. clearbody g.
  pose proof (ginv_points L I) as Pt.
  destruct (@g_result_best f lo up qlo qup stol qtol j g L T P Ku Kl I) as (B1 & B2 & B3).
  assert (In' : forall x, In x (g_evals g) -> f (fst (g_result f up lo stol qtol g)) <= f x).
  { intros y Hy. eapply Rle_trans; [exact B1|]. exact (gi_best I y Hy). }
  unfold g_result in Hx at 1.
  destruct (wide g stol && qf_lt g qtol) eqn:E; [exact (In' x Hx)|].
  destruct (if Rlt_dec (g_q1 g) (g_q2 g) then (g_m1 g, g_q1 g) else (g_m2 g, g_q2 g)) as [sg qv].
  destruct (Req_EM_T (g_up g) up) as [e|e].
  - destruct (Rlt_dec (g_qup g) 0); [destruct Hx as [<-|Hx]|]; try exact (In' x Hx). rewrite e.
    apply B2; [exact e|discriminate].
  - destruct (Req_EM_T (g_lo g) lo) as [e2|e2]; [|exact (In' x Hx)].
    destruct (Rlt_dec (g_qlo g) 0); [destruct Hx as [<-|Hx]|]; try exact (In' x Hx). rewrite e2.
    apply B3; [exact e2|lra|discriminate].
Qed.

(** C80: the whole oracle. The smallest allowed sigma is lo, the largest hi. If they enclose 1,
    the sigma chosen lies between them; hence the barrier parameter is between mu_min and
    mu_max. At most quality_function_max_section_steps + 5 evaluations are made. *)
Theorem C80_oracle_range : forall f n smin smax stol qtol mumin mumax avrg,
  let lo := Rmax smin (mumin / avrg) in
  let hi := Rmin smax (mumax / avrg) in
  0 < avrg -> lo <= 1 <= hi -> 0 <= stol ->
  let r := qf_sigma f n smin smax stol qtol mumin mumax avrg in
  lo <= fst r <= hi /\
  mumin <= qf_mu f n smin smax stol qtol mumin mumax avrg <= mumax /\
  (length (snd r) <= n + 5)%nat.
Proof.
  intros f n smin smax stol qtol mumin mumax avrg lo hi Av Lh St r.
  assert (R1 : lo <= fst r <= hi /\ (length (snd r) <= n + 5)%nat).
  { unfold r, qf_sigma.
    set (s1m := 1 - Rmax (/ 10000) stol).
    assert (S1 : s1m < 1) by (unfold s1m; pose proof (Rmax_l (/ 10000) stol); lra).
    destruct (Rgt_dec (f s1m) (f 1)).
    - fold hi. destruct (Rge_dec 1 hi); [cbn [fst snd length]; split; [lra|lia]|].
      destruct (golden f n hi (-100) 1 (f 1) stol qtol) as [s ev] eqn:G.
      pose proof (C80_golden_range f n 1 hi (f 1) (-100) stol qtol ltac:(lra)) as Z. cbv zeta in Z. rewrite G in Z.
      cbn [fst snd] in *. destruct Z as (Z1 & _ & Z2). split; [lra|]. rewrite app_length. cbn [length]. lia.
    - fold lo. set (up := Rmin (Rmax lo s1m) (mumax / avrg)).
      assert (U1 : up <= hi).
      { unfold up, hi. apply Rmin_glb; [|apply Rmin_r]. eapply Rle_trans; [apply Rmin_l|].
        assert (hi <= smax) by apply Rmin_l. apply Rmax_lub; lra. }
      destruct (Rge_dec lo up); [cbn [fst snd length]; split; [lra|lia]|].
      destruct (golden f n up (f s1m) lo (-100) stol qtol) as [s ev] eqn:G.
      pose proof (C80_golden_range f n lo up (-100) (f s1m) stol qtol ltac:(lra)) as Z. cbv zeta in Z. rewrite G in Z.
      cbn [fst snd] in *. destruct Z as (Z1 & _ & Z2). split; [lra|]. rewrite app_length. cbn [length]. lia. }
  destruct R1 as (R1 & R2). split; [exact R1|]. split; [|exact R2].
  unfold qf_mu. fold r.
  assert (mumin / avrg <= fst r) by (eapply Rle_trans; [apply Rmax_r|]; exact (proj1 R1)).
  assert (fst r <= mumax / avrg) by (eapply Rle_trans; [exact (proj2 R1)|]; apply Rmin_r).
  split.
  - replace mumin with (mumin / avrg * avrg) by (field; lra). apply Rmult_le_compat_r; lra.
  - replace mumax with (mumax / avrg * avrg) by (field; lra). apply Rmult_le_compat_r; lra.
Qed.

Definition ex_f (x : R) : R := (x - / 2) * (x - / 2) + 1.
(** The hypotheses are met: a unimodal quality function with minimiser one half; sigma between
    10^-6 and 100. *)
Example C80_nonvacuous :
  (forall x, 0 < ex_f x) /\ unimodal ex_f (/ 1000000) 1 (/ 2) /\
  (let lo := Rmax (/ 1000000) (/ 10 / 1000) in let hi := Rmin 100 (10000 / 1000) in lo <= 1 <= hi) /\
  Rabs (fst (golden ex_f 8 1 (-100) (/ 1000000) (-100) (/ 100) 0) - / 2) <= / 10.
Proof.
  assert (P : forall x, 0 < ex_f x) by (intros x; unfold ex_f; pose proof (Rle_0_sqr (x - / 2)) as Q; unfold Rsqr in Q; lra).
  assert (U : unimodal ex_f (/ 1000000) 1 (/ 2)).
  { split; [lra|]. split; intros x y A B C; unfold ex_f; nra. }
  split; [exact P|]. split; [exact U|]. split.
  - cbv zeta. split; [apply Rmax_lub; lra | apply Rmin_glb; lra].
  - eapply Rle_trans; [apply (C80_golden_precision ex_f 8 (/ 1000000) 1 (-100) (-100) (/ 100) (/ 2)); auto; lra|].
    apply Rmax_lub; [lra|].
    assert (S5 : 0 <= (sqrt 5 - 1) / 2 <= 7 / 10).
    { assert (sqrt 5 <= 12 / 5) by (rewrite <- (sqrt_square (12 / 5)) by lra; apply sqrt_le_1; lra).
      assert (1 <= sqrt 5) by (rewrite <- sqrt_1; apply sqrt_le_1; lra). lra. }
    pose proof (pow_incr _ _ 8 S5) as Q.
    assert ((7 / 10) ^ 8 <= / 10) by (cbn [pow]; lra).
    pose proof (pow_le _ 8 (proj1 S5)). 
    apply Rle_trans with (((sqrt 5 - 1) / 2) ^ 8 * 1); [apply Rmult_le_compat_l; lra|]. lra.
Qed.

(** C80 refuted: the barrier parameter returned is between mu_min and mu_max. It is above mu_max
    when sigma_min times the average complementarity is, and below mu_min when sigma_max times
    the average complementarity is. (AdaptiveMuUpdate clips the barrier parameter afterwards,
    but the search direction stored is that for the value returned, C81.) *)
Theorem C80_mu_range_refuted :
  ~ (forall f n smin smax stol qtol mumin mumax avrg, (forall x, 0 < f x) -> 0 < smin -> smin < smax ->
       0 < mumin < mumax -> 0 < avrg -> 0 <= stol ->
       qf_mu f n smin smax stol qtol mumin mumax avrg <= mumax) /\
  ~ (forall f n smin smax stol qtol mumin mumax avrg, (forall x, 0 < f x) -> 0 < smin -> smin < smax ->
       0 < mumin < mumax -> 0 < avrg -> 0 <= stol ->
       mumin <= qf_mu f n smin smax stol qtol mumin mumax avrg).
Proof.
  split; intros H.
  - specialize (H (fun _ => 1) 8%nat (/ 10) 100 (/ 100) 0 (/ 1000) (/ 100) 1 ltac:(intros; lra) ltac:(lra) ltac:(lra) ltac:(lra) ltac:(lra) ltac:(lra)).
    unfold qf_mu, qf_sigma in H. destruct (Rgt_dec 1 1) as [Q|_]; [lra|].
    rewrite (Rmax_right (/ 10000)) in H by lra. rewrite (Rmax_left (/ 10)) in H by lra.
    rewrite (Rmax_right (/ 10)) in H by lra. rewrite Rmin_right in H by lra.
    destruct (Rge_dec (/ 10) (/ 100 / 1)) as [_|Q]; [cbn [fst] in H; lra|lra].
  - specialize (H (fun x => if Rgt_dec 1 x then 2 else 1) 8%nat (/ 1000) (/ 100) (/ 100) 0 (/ 10) 1 1).
    assert (A : forall x, 0 < (fun x => if Rgt_dec 1 x then 2 else 1) x) by (intros x; cbv beta; destruct (Rgt_dec 1 x); lra).
    specialize (H A ltac:(lra) ltac:(lra) ltac:(lra) ltac:(lra) ltac:(lra)).
    unfold qf_mu, qf_sigma in H. cbv beta in H. rewrite (Rmax_right (/ 10000)) in H by lra.
    destruct (Rgt_dec 1 (1 - / 100)) as [_|Q]; [|lra]. destruct (Rgt_dec 1 1) as [Q|_]; [lra|].
    destruct (Rgt_dec 2 1) as [_|Q]; [|lra].
    rewrite Rmin_left in H by lra. destruct (Rge_dec 1 (/ 100)) as [_|Q]; [|lra]. cbn [fst] in H. lra.
Qed.

(** C80 refuted: the sigma chosen is not worse than sigma = 1, at which the quality function has
    been evaluated: only the upper end of the interval is compared with the result if it is
    still the original one. For any number of section steps. *)
Definition ex_bad (x : R) : R := if Rlt_dec x 1 then 100 else if Req_EM_T x 1 then 1 else 10 + / x.
Theorem C80_not_worse_than_one_refuted : forall n,
  exists sigma, fst (qf_sigma ex_bad n (/ 1000000) 100 (/ 100) 0 (/ 1000000) 1000 1) = sigma /\
    In 1 (snd (qf_sigma ex_bad n (/ 1000000) 100 (/ 100) 0 (/ 1000000) 1000 1)) /\
    ex_bad 1 = 1 /\ 10 < ex_bad sigma.
Proof.
  intros n. eexists. split; [reflexivity|].
  assert (B1 : ex_bad 1 = 1).
  { unfold ex_bad. destruct (Rlt_dec 1 1); [lra|]. destruct (Req_EM_T 1 1); [reflexivity|congruence]. }
  assert (Bx : forall x, 1 < x -> ex_bad x = 10 + / x).
  { intros x X. unfold ex_bad. destruct (Rlt_dec x 1); [lra|]. destruct (Req_EM_T x 1); [lra|reflexivity]. }
  assert (Bm : ex_bad (1 - / 100) = 100) by (unfold ex_bad; destruct (Rlt_dec (1 - / 100) 1); lra).
  unfold qf_sigma. rewrite (Rmax_right (/ 10000)) by lra. rewrite Bm, B1.
  destruct (Rgt_dec 100 1) as [_|Q]; [|lra]. rewrite Rmin_left by lra.
  destruct (Rge_dec 1 100) as [Q|_]; [lra|].
  destruct (golden ex_bad n 100 (-100) 1 1 (/ 100) 0) as [s ev] eqn:G. cbn [fst snd].
  split; [apply in_or_app; right; right; left; reflexivity|]. split; [reflexivity|].
  enough (S1 : 1 < s) by (rewrite Bx by exact S1; pose proof (Rinv_0_lt_compat s ltac:(lra)); lra).
  replace s with (fst (golden ex_bad n 100 (-100) 1 1 (/ 100) 0)) by (rewrite G; reflexivity). clear G s ev.
  unfold golden.
  assert (L : 1 < 100) by lra.
  assert (K : forall m k g, ginv ex_bad 1 100 1 (-100) k g -> g_up g = 100 ->
            g_up (g_loop ex_bad m (/ 100) 0 g) = 100).
  { induction m as [|m IH]; intros k g I Ug; cbn [g_loop]; [exact Ug|].
    destruct (wide g (/ 100) && qf_ge g 0); [|exact Ug].
    apply (IH (Datatypes.S k)); [apply g_step_inv; assumption|].
    pose proof (ginv_points L I) as Pt.
    unfold g_step. destruct (Rgt_dec (g_q1 g) (g_q2 g)) as [_|Q]; [exact Ug|].
    exfalso. apply Q. rewrite (gi_q1 I), (gi_q2 I), !Bx by lra.
    pose proof (Rinv_lt_contravar (g_m1 g) (g_m2 g) ltac:(apply Rmult_lt_0_compat; lra) ltac:(lra)). lra. }
  pose proof (g_init_inv ex_bad 1 (-100) L) as I0.
  specialize (K n 0%nat _ I0 eq_refl).
  destruct (@g_loop_inv ex_bad 1 100 1 (-100) (/ 100) 0 L n 0 _ I0) as (j & _ & I & _ & _).
  set (g := g_loop ex_bad n (/ 100) 0 (g_init ex_bad 100 (-100) 1 1)) in *. clearbody g.
  pose proof (ginv_points L I) as Pt.
  assert (Pq : 0 < g_q1 g) by (rewrite (gi_q1 I), Bx by lra; pose proof (Rinv_0_lt_compat (g_m1 g) ltac:(lra)); lra).
  unfold g_result.
  assert (NQ : qf_lt g 0 = false).
  { unfold qf_lt. pose proof (qf_ge_zero g Pq) as Z. unfold qf_ge in Z.
    destruct (Req_EM_T (g_max g) 0); [reflexivity|]. destruct (Rge_dec _ 0); [|discriminate]. destruct (Rlt_dec _ 0); [lra|reflexivity]. }
  rewrite NQ, andb_false_r.
  destruct (Rlt_dec (g_q1 g) (g_q2 g)); (destruct (Req_EM_T (g_up g) 100) as [_|Q]; [|congruence]);
    destruct (Rlt_dec (g_qup g) 0); cbn [fst]; destruct (Rlt_dec _ _); lra.
Qed.

(** C80 refuted: the sigma returned is the best of the points evaluated between sigma_lo and
    sigma_up. When mu_max restricts the search to sigma_up < 1 - 10^-4, the value at 1 - 10^-4 is
    still passed as the value at sigma_up (condition of [C80_golden_best]). *)
Definition ex_bad2 (x : R) : R := if Rlt_dec x (/ 2) then 5 else if Rle_dec x (3 / 4) then 9 else 1.
Theorem C80_wrong_end_value_refuted :
  let r := qf_sigma ex_bad2 0 (/ 1000000) 100 (/ 100) 0 (/ 1000000) (/ 2) 1 in
  fst r = / 2 /\ ex_bad2 (fst r) = 9 /\ exists x, In x (snd r) /\ / 1000000 < x < / 2 /\ ex_bad2 x = 5.
Proof.
  assert (B1 : ex_bad2 1 = 1) by (unfold ex_bad2; destruct (Rlt_dec 1 (/ 2)); [lra|]; destruct (Rle_dec 1 (3 / 4)); lra).
  assert (B2 : ex_bad2 (1 - / 100) = 1) by (unfold ex_bad2; destruct (Rlt_dec (1 - / 100) (/ 2)); [lra|]; destruct (Rle_dec (1 - / 100) (3 / 4)); lra).
  assert (B3 : forall x, x < / 2 -> ex_bad2 x = 5) by (intros x X; unfold ex_bad2; destruct (Rlt_dec x (/ 2)); lra).
  assert (B4 : ex_bad2 (/ 2) = 9) by (unfold ex_bad2; destruct (Rlt_dec (/ 2) (/ 2)); [lra|]; destruct (Rle_dec (/ 2) (3 / 4)); lra).
  cbv zeta. unfold qf_sigma. rewrite (Rmax_right (/ 10000)) by lra. rewrite B1, B2.
  destruct (Rgt_dec 1 1) as [Q|_]; [lra|].
  rewrite (Rmax_left (/ 1000000)) by lra. rewrite (Rmax_right (/ 1000000)) by lra. rewrite Rmin_right by lra.
  destruct (Rge_dec (/ 1000000) (/ 2 / 1)) as [Q|_]; [lra|].
  unfold golden. cbn [g_loop]. unfold g_init. cbv zeta.
  pose proof gfac_range as G.
  set (m1 := / 1000000 + gfac * (/ 2 / 1 - / 1000000)). set (m2 := / 1000000 + (1 - gfac) * (/ 2 / 1 - / 1000000)).
  assert (D : 0 < / 2 / 1 - / 1000000) by lra.
  assert (M1 : / 1000000 < m1 < / 2).
  { unfold m1. pose proof (Rmult_lt_0_compat _ _ (proj1 G) D).
    pose proof (Rmult_lt_compat_r _ gfac 1 D ltac:(lra)). lra. }
  assert (M2 : / 1000000 < m2 < / 2).
  { unfold m2. pose proof (Rmult_lt_0_compat (1 - gfac) _ ltac:(lra) D).
    pose proof (Rmult_lt_compat_r _ (1 - gfac) 1 D ltac:(lra)). lra. }
  unfold g_result. cbn [g_lo g_up g_m1 g_m2 g_qlo g_qup g_q1 g_q2 g_evals]. rewrite (B3 m1), (B3 m2) by lra.
  assert (NQ : forall g, g_qlo g = -100 -> g_q1 g = 5 -> qf_lt g 0 = false).
  { intros g _ Q5. unfold qf_lt. pose proof (qf_ge_zero g ltac:(lra)) as Z. unfold qf_ge in Z.
    destruct (Req_EM_T (g_max g) 0); [reflexivity|]. destruct (Rge_dec _ 0); [|discriminate]. destruct (Rlt_dec _ 0); [lra|reflexivity]. }
  rewrite NQ by reflexivity. rewrite andb_false_r.
  destruct (Rlt_dec 5 5) as [Q|_]; [lra|].
  destruct (Req_EM_T (/ 2 / 1) (/ 2 / 1)) as [_|Q]; [|congruence].
  destruct (Rlt_dec 1 0) as [Q|_]; [lra|]. destruct (Rlt_dec 1 5) as [_|Q]; [|lra]. cbn [fst snd].
  replace (/ 2 / 1) with (/ 2) by field.
  split; [reflexivity|]. split; [exact B4|]. exists m1. split; [right; left; reflexivity|]. split; [exact M1|]. apply B3. lra.
Qed.

(** C81: the LOQO rule. With mu_min <= mu_max the barrier parameter is between them; the
    centering parameter is at most 0.8 and not negative, and gets smaller the more uniform the
    complementarity is; with perfectly uniform complementarity it is 0. *)
Theorem C81_loqo_range : forall avrg xi mumin mumax, mumin <= mumax -> mumin <= loqo avrg xi mumin mumax <= mumax.
Proof.
  intros avrg xi mumin mumax H. unfold loqo. split; [apply Rmax_r|]. apply Rmax_lub; [apply Rmin_l|exact H].
Qed.
Lemma loqo_arg xi : 0 < xi <= 1 -> 0 <= / 20 * (1 - xi) / xi.
Proof. intros X. apply Rmult_le_pos; [lra|]. left. apply Rinv_0_lt_compat. lra. Qed.
Theorem C81_loqo_sigma : forall xi, 0 < xi <= 1 -> 0 <= loqo_sigma xi <= 8 / 10.
Proof.
  intros xi X. unfold loqo_sigma. pose proof (loqo_arg xi X) as A.
  assert (M : 0 <= Rmin (/ 20 * (1 - xi) / xi) 2 <= 2) by (split; [apply Rmin_glb; lra | apply Rmin_r]).
  pose proof (pow_le _ 3 (proj1 M)). pose proof (pow_incr _ _ 3 M) as Q.
  replace (2 ^ 3) with 8 in Q by ring. lra.
Qed.
Theorem C81_loqo_monotone : forall xi1 xi2, 0 < xi1 <= xi2 -> xi2 <= 1 -> loqo_sigma xi2 <= loqo_sigma xi1.
Proof.
  intros a b A B. unfold loqo_sigma. pose proof (loqo_arg b ltac:(lra)) as P.
  assert (M : / 20 * (1 - b) / b <= / 20 * (1 - a) / a).
  { unfold Rdiv. apply Rmult_le_compat; try lra.
    - left; apply Rinv_0_lt_compat; lra.
    - apply Rinv_le_contravar; lra. }
  apply Rmult_le_compat_l; [lra|]. apply pow_incr. split; [apply Rmin_glb; lra|].
  apply Rmin_glb; [|apply Rmin_r]. eapply Rle_trans; [apply Rmin_l|exact M].
Qed.
Theorem C81_loqo_uniform : forall avrg mumin mumax, 0 <= mumin <= mumax -> loqo avrg 1 mumin mumax = mumin.
Proof.
  intros avrg mumin mumax H. unfold loqo, loqo_sigma.
  replace (/ 20 * (1 - 1) / 1) with 0 by field. rewrite (Rmin_left 0 2) by lra.
  replace (/ 10 * 0 ^ 3 * avrg) with 0 by ring. rewrite (Rmin_right mumax 0) by lra. apply Rmax_right. lra.
Qed.
Example C81_loqo_nonvacuous : loqo_sigma (/ 41) = 8 / 10 /\ loqo_sigma (/ 21) = / 10 /\ loqo 1 (/ 21) (/ 1000) 100 = / 10.
Proof.
  assert (E : loqo_sigma (/ 21) = / 10).
  { unfold loqo_sigma. replace (/ 20 * (1 - / 21) / / 21) with 1 by field. rewrite Rmin_left by lra. ring. }
  split; [|split; [exact E|]].
  - unfold loqo_sigma. replace (/ 20 * (1 - / 41) / / 41) with 2 by field. rewrite Rmin_left by lra. field.
  - unfold loqo. rewrite E, Rmin_right by lra. rewrite Rmax_left by lra. ring.
Qed.

Print Assumptions C80_golden_range.
Print Assumptions C80_golden_precision.
Print Assumptions C80_golden_best.
Print Assumptions C80_oracle_range.
Print Assumptions C80_mu_range_refuted.
Print Assumptions C80_not_worse_than_one_refuted.
Print Assumptions C80_wrong_end_value_refuted.
Print Assumptions C81_loqo_range.
Print Assumptions C81_loqo_sigma.
Print Assumptions C81_loqo_monotone.
Print Assumptions C81_loqo_uniform.
