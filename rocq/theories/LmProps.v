(** Properties C35, C51, C52: the limited-memory quasi-Newton approximation. *)
From Coq Require Import List Bool Arith Reals Lia Lra Psatz FunctionalExtensionality Classical.
From Flocq Require Import Core.Raux.
From Verif Require Import LmModel LmSpec LmProofs LmCompact LmRun LmChol LmSr1.
Import ListNotations.
Local Open Scope R_scope.

(** ** C35: what is kept *)
Lemma history_unique o n its h s k h' s' k' : bfgs_history o n its h s k -> bfgs_history o n its h' s' k' -> h = h' /\ s = s' /\ k = k'.
Proof.
  intros H. revert h' s' k'. induction H; intros h' s' k' H'; inversion H'; subst; auto;
    match goal with IH : forall h' s' k', _ -> _ |- _ => edestruct IH as (? & ? & ?); [eassumption|]; subst end; auto; try lia; contradiction.
Qed.
Lemma history_usable o n its h s k : bfgs_history o n its h s k -> Forall (usable o n) h /\ (length h <= o_max_history o)%nat.
Proof.
  induction 1 as [| | it last rest h sigma k H IH Hk Hu |]; try (split; [constructor|cbn; lia]); auto.
  destruct IH as [IH _]. split; [|apply last_n_length].
  assert (G : Forall (usable o n) (h ++ [pair_of last it])) by (apply Forall_app; split; [assumption|constructor; [assumption|constructor]]).
  rewrite Forall_forall in *. intros p Hp. apply G. unfold last_n in Hp.
  rewrite <- (firstn_skipn (length (h ++ [pair_of last it]) - o_max_history o) (h ++ [pair_of last it])). apply in_or_app. right. assumption.
Qed.
(** There is exactly one history for every sequence of iterates. *)
Theorem C35_one_history o n its it : lapack_ok o -> options_ok o -> o_type o = BFGS ->
  exists h sigma k, bfgs_history o n (it :: its) h sigma k /\
    forall h' s' k', bfgs_history o n (it :: its) h' s' k' -> h' = h /\ s' = sigma /\ k' = k.
Proof.
  intros HL Ho Ht. destruct (run_inv o n (nothing 0 (o_fresh o)) HL Ho Ht its it) as (h & sigma & k & _ & H).
  exists h, sigma, k. split; [assumption|]. intros h' s' k' H'. destruct (history_unique _ _ _ _ _ _ _ _ _ H H') as (-> & -> & ->). auto.
Qed.
(** What is stored after any sequence of iterates (latest: [it]) is that history: the
    most recent usable pairs, in order, at most limited_memory_max_history of them. *)
Theorem C35_stored_pairs o n garbage its it h sigma k : lapack_ok o -> options_ok o -> o_type o = BFGS ->
  bfgs_history o n (it :: its) h sigma k ->
  let st := run o n garbage (rev its ++ [it]) in
  d_S (st_data st) = map fst h /\ d_Y (st_data st) = map snd h /\ d_mem (st_data st) = length h /\
  (length h <= o_max_history o)%nat /\ Forall (usable o n) h /\ st_skipped st = k /\ d_sigma (st_data st) = sigma.
Proof.
  intros HL Ho Ht Hh st. destruct (run_inv o n garbage HL Ho Ht its it) as (h' & s' & k' & I & H).
  destruct (history_unique _ _ _ _ _ _ _ _ _ Hh H) as (<- & <- & <-). destruct (history_usable _ _ _ _ _ _ Hh) as [U L].
  destruct I as [S1 S2 S3 S4 S5 S6 S7 S8 S9 S10]. destruct S3. auto 10.
Qed.
(** The incrementally updated products are those of the stored pairs. *)
Theorem C35_products o n garbage its it h sigma k : lapack_ok o -> options_ok o -> o_type o = BFGS ->
  bfgs_history o n (it :: its) h sigma k ->
  let d := st_data (run o n garbage (rev its ++ [it])) in
  let m := length h in
  let s i := fst (nth i h (vzero, vzero)) in
  let y i := snd (nth i h (vzero, vzero)) in
  forall i j, (i < m)%nat -> (j < m)%nat ->
    nth i (d_D d) 0 = dot n (s i) (y i) /\
    d_L d (i + j * m)%nat = (if (j <? i)%nat then dot n (s i) (y j) else 0) /\
    ((j <= i)%nat -> d_SS d (i + j * m)%nat = dot n (s i) (s j)).
Proof.
  intros HL Ho Ht Hh d m s y i j Hi Hj. destruct (run_inv o n garbage HL Ho Ht its it) as (h' & s' & k' & I & H).
  destruct (history_unique _ _ _ _ _ _ _ _ _ Hh H) as (<- & <- & <-). pose proof (sv_data _ _ _ _ _ _ _ I) as Hd. fold d in Hd.
  pose proof (hS_nth h) as ES. pose proof (hY_nth h) as EY. unfold hS, hY in ES, EY.
  split; [|split].
  - rewrite (dv_D _ _ _ Hd), nth_map_D by assumption. unfold cD, hS, hY, s, y. rewrite ES, EY. reflexivity.
  - pose proof (dv_L _ _ _ Hd i j Hi Hj) as E. unfold at_ in E. fold m in E. rewrite E, ES, EY. reflexivity.
  - intros Hji. pose proof (dv_SS _ _ _ Hd i j Hji Hi) as E. unfold at_ in E. fold m in E. rewrite E, !ES. reflexivity.
Qed.

(** ** C51: the BFGS matrix *)
(** After any sequence of iterates the matrix W given to the algorithm is exactly the one
    the BFGS formula produces from sigma I and the history. *)
Theorem C51_bfgs_formula o n garbage its it h sigma k : lapack_ok o -> options_ok o -> o_type o = BFGS ->
  bfgs_history o n (it :: its) h sigma k ->
  exists W, st_W (run o n garbage (rev its ++ [it])) = Some W /\
    forall x i, (i < n)%nat -> lr_mult n W x i = bfgs_matrix n sigma h x i.
Proof.
  intros HL Ho Ht Hh. destruct (run_inv o n garbage HL Ho Ht its it) as (h' & s' & k' & I & H).
  destruct (history_unique _ _ _ _ _ _ _ _ _ Hh H) as (<- & <- & <-). apply (sv_W _ _ _ _ _ _ _ I).
Qed.
(** It is symmetric and positive definite. *)
Theorem C51_positive_definite o n garbage its it : lapack_ok o -> options_ok o -> o_type o = BFGS ->
  exists W, st_W (run o n garbage (rev its ++ [it])) = Some W /\ symmetric n (lr_mult n W) /\ positive_definite n (lr_mult n W).
Proof.
  intros HL Ho Ht. destruct (run_inv o n garbage HL Ho Ht its it) as (h & sigma & k & I & H).
  destruct (sv_W _ _ _ _ _ _ _ I) as (W & E & HW). exists W. split; [assumption|].
  destruct (bfgs_matrix_good n sigma h (sv_pos _ _ _ _ _ _ _ I) (sv_good _ _ _ _ _ _ _ I)) as (_ & HS & HP).
  split.
  - intros x y. rewrite (dot_ext n x _ x (bfgs_matrix n sigma h y)), (dot_ext n _ y (bfgs_matrix n sigma h x) y) by auto. apply HS.
  - intros x Hx. rewrite (dot_ext n x _ x (bfgs_matrix n sigma h x)) by auto. apply HP. assumption.
Qed.
(** After a usable pair it satisfies the secant equation W s = y for that pair. *)
Theorem C51_secant o n garbage its last it h sigma k : lapack_ok o -> options_ok o -> o_type o = BFGS ->
  (0 < o_max_history o)%nat -> bfgs_history o n (last :: its) h sigma k -> (k < o_max_skipping o)%nat -> usable o n (pair_of last it) ->
  exists W, st_W (run o n garbage (rev its ++ [last; it])) = Some W /\
    forall i, (i < n)%nat -> lr_mult n W (fst (pair_of last it)) i = snd (pair_of last it) i.
Proof.
  intros HL Ho Ht Hm Hh Hk Hu.
  pose proof (h_use o n it last its h sigma k Hh Hk Hu) as H.
  destruct (C51_bfgs_formula o n garbage (last :: its) it _ _ _ HL Ho Ht H) as (W & E & HW).
  cbn [rev] in E. rewrite <- app_assoc in E. exists W. split; [exact E|]. intros i Hi. rewrite HW by assumption.
  set (sg := clamp _ _ _) in *.
  assert (Hsg : 0 < sg). { destruct Ho as (_ & Ho & _). unfold sg, clamp. eapply Rlt_le_trans; [exact Ho|apply Rmax_r]. }
  assert (El : exists h', last_n (o_max_history o) (h ++ [pair_of last it]) = h' ++ [pair_of last it] /\ good n (h' ++ [pair_of last it])).
  { destruct (history_usable _ _ _ _ _ _ H) as [U _].
    assert (exists h', last_n (o_max_history o) (h ++ [pair_of last it]) = h' ++ [pair_of last it]) as [h' Eh].
    { unfold last_n. rewrite skipn_app. rewrite app_length. cbn [length].
      replace (length h + 1 - o_max_history o - length h)%nat with O by lia. eexists. reflexivity. }
    exists h'. split; [exact Eh|]. rewrite Eh in U. eapply Forall_impl; [|exact U]. intros p Hp. apply (usable_good o n p Hp). apply Ho. }
  destruct El as (h' & -> & G). rewrite bfgs_matrix_snoc.
  apply Forall_app in G. destruct G as [G1 G2]. inversion_clear G2 as [|? ? G3 _].
  destruct (bfgs_matrix_good n sg h' Hsg G1) as (_ & _ & HP).
  destruct (pair_of last it) as [s y]. cbn [fst snd] in *. apply bfgs_step_secant; [lra|].
  assert (0 < dot n s (bfgs_matrix n sg h' s)); [|lra]. apply HP. apply NNPP. intros C. assert (dot n s y = 0); [|lra].
  apply sumn_zero. intros j Hj. destruct (Req_dec (s j) 0) as [->|E0]; [ring|]. exfalso. apply C. exists j. auto.
Qed.
(** A skipped pair leaves the matrix as it was; after limited_memory_max_skipping
    successive skipped pairs it becomes a multiple of the identity. *)
Theorem C51_skip_and_reset o n garbage its last it h sigma k : lapack_ok o -> options_ok o -> o_type o = BFGS ->
  bfgs_history o n (last :: its) h sigma k ->
  ((k < o_max_skipping o)%nat -> ~ usable o n (pair_of last it) ->
     st_W (run o n garbage (rev its ++ [last; it])) = st_W (run o n garbage (rev its ++ [last])) /\
     st_skipped (run o n garbage (rev its ++ [last; it])) = (k + 1)%nat) /\
  ((o_max_skipping o <= k)%nat ->
     exists W, st_W (run o n garbage (rev its ++ [last; it])) = Some W /\ forall x i, lr_mult n W x i = o_init_val o * x i).
Proof.
  intros HL Ho Ht Hh. destruct (run_inv o n garbage HL Ho Ht its last) as (h' & s' & k' & I & H).
  destruct (history_unique _ _ _ _ _ _ _ _ _ Hh H) as (<- & <- & <-).
  replace (rev its ++ [last; it]) with ((rev its ++ [last]) ++ [it]) by (rewrite <- app_assoc; reflexivity).
  unfold run in *. rewrite fold_left_app. cbn [fold_left]. set (st := fold_left _ (rev its ++ [last]) _) in *.
  destruct I as [S1 S2 S3 S4 S5 S6 S7 S8 S9 S10]. unfold update_hessian. rewrite S1, S2, Ht. split.
  - intros Hk Hu. replace (o_max_skipping o <=? k)%nat with false by (symmetry; apply Nat.leb_gt; assumption).
    pose proof (y_new_pair last it) as EP.
    destruct (Rlt_bool_spec (amax n (s_new last it)) (100 * o_eps o)) as [H1|H1]; [cbn; auto|].
    assert (E : skip_bfgs o n (s_new last it) (y_new last it) = true).
    { unfold skip_bfgs. apply Rle_bool_true. apply Rnot_lt_le. intros H2. apply Hu. rewrite <- EP. split; cbn [fst snd]; assumption. }
    unfold bfgs. rewrite E. cbn. auto.
  - intros Hk. replace (o_max_skipping o <=? k)%nat with true by (symmetry; apply Nat.leb_le; assumption).
    eexists. split; [reflexivity|]. intros x i. unfold lr_mult. cbn. ring.
Qed.

(** *** a concrete case: one variable, objective x^2, iterates 0, 1, 2 *)
Definition ex_options (t : update_type) (m : nat) : options :=
  Opts m t SCALAR1 1 2 100000000 (1 / 100000000) (1 / 4503599627370496) exact_chol cholC
    (fun k Z => (fun _ => Z 0%nat 0%nat, fun i j => delta i j)) (fun _ => 7).
Definition ex_iter (x : R) : iter := Iter (fun _ => x) (fun _ => 2 * x) (fun _ _ => 0) (fun _ _ => 0) vzero vzero false.
Lemma ex_lapack t m : lapack_ok (ex_options t m).
Proof. apply exact_chol_ok; reflexivity. Qed.
Lemma ex_options_ok t m : options_ok (ex_options t m).
Proof. unfold options_ok. cbn. lra. Qed.
Lemma ex_pair x x' : pair_of (ex_iter x) (ex_iter x') = (fun _ => x' - x, fun _ => 2 * (x' - x)).
Proof. unfold pair_of, grad_lagrangian. cbn. f_equal. apply functional_extensionality. intros. ring. Qed.
Lemma ex_usable t m x x' : 1 <= x' - x -> usable (ex_options t m) 1 (pair_of (ex_iter x) (ex_iter x')).
Proof.
  intros H. rewrite ex_pair. unfold usable. cbn [fst snd].
  set (o := ex_options t m). unfold nrm2, dot, sumn, amax. rewrite !Rplus_0_l. split.
  - cbn. rewrite Rabs_pos_eq by lra. rewrite Rmax_right; lra.
  - rewrite sqrt_square by lra.
    replace (2 * (x' - x) * (2 * (x' - x))) with ((2 * (x' - x)) * (2 * (x' - x))) by ring. rewrite sqrt_square by lra.
    assert (sqrt (o_eps o) < 1). { rewrite <- sqrt_1. apply sqrt_lt_1; cbn; lra. }
    assert (0 < (x' - x) * (2 * (x' - x))) by nra. rewrite Rmult_assoc.
    rewrite <- (Rmult_1_l ((x' - x) * (2 * (x' - x)))) at 2. apply Rmult_lt_compat_r; assumption.
Qed.
Example C51_example garbage : exists h sigma k,
  bfgs_history (ex_options BFGS 1) 1 [ex_iter 2; ex_iter 1; ex_iter 0] h sigma k /\ length h = 1%nat /\ k = 0%nat /\
  exists W, st_W (run (ex_options BFGS 1) 1 garbage [ex_iter 0; ex_iter 1; ex_iter 2]) = Some W /\
    forall i, (i < 1)%nat -> lr_mult 1 W (fst (pair_of (ex_iter 1) (ex_iter 2))) i = snd (pair_of (ex_iter 1) (ex_iter 2)) i.
Proof.
  pose proof (h_start (ex_options BFGS 1) 1 (ex_iter 0)) as H0.
  pose proof (h_use _ _ (ex_iter 1) _ _ _ _ _ H0 ltac:(cbn; lia) ltac:(apply ex_usable; lra)) as H1.
  pose proof (h_use _ _ (ex_iter 2) _ _ _ _ _ H1 ltac:(cbn; lia) ltac:(apply ex_usable; lra)) as H2.
  eexists _, _, _. split; [exact H2|]. split; [reflexivity|]. split; [reflexivity|].
  apply (C51_secant _ _ garbage [ex_iter 0] (ex_iter 1) (ex_iter 2) _ _ _ (ex_lapack BFGS 1) (ex_options_ok BFGS 1) eq_refl
     ltac:(cbn; lia) H1 ltac:(cbn; lia) ltac:(apply ex_usable; lra)).
Qed.

(** ** C52: the SR1 matrix *)
Definition eig_correct (o : options) : Prop := forall k Z, (0 < k <= o_max_history o)%nat ->
  (forall i j, Z i j = Z j i) -> eig_ok k Z (fst (o_eig o k Z)) (snd (o_eig o k Z)).
Definition consistent (o : options) (n : nat) (d : data) : Prop := exists h, dinv n h d /\ (length h <= o_max_history o)%nat.
Lemma sr1_step o n regu s y d b sk retro d' b' : eig_correct o -> (0 < o_max_history o)%nat ->
  consistent o n d -> consistent o n b -> sr1 o n regu s y d b = (sk, retro, d', b') ->
  consistent o n d' /\ consistent o n b' /\ (sk = false -> forall r, lr_mult n (setW d') s r = y r).
Proof.
  intros HE Hm Hd Hb. unfold sr1. set (d0 := if regu then b else d).
  assert (H0 : consistent o n d0) by (unfold d0; destruct regu; assumption).
  destruct H0 as (h & D0 & L0).
  destruct (update_data_inv n (o_max_history o) (o_fresh o) s y d0 h D0 L0 Hm) as (I1 & _).
  destruct (update_data n (o_max_history o) (o_fresh o) s y d0) as [aug d1]. cbn [snd] in I1.
  set (sg := if (d_mem d1 =? 1)%nat then _ else _). replace (o_max_history o =? 0)%nat with false by (symmetry; apply Nat.eqb_neq; lia).
  assert (D2 : dinv n (last_n (o_max_history o) (h ++ [(s, y)])) (set_sigma d1 sg)) by (destruct I1; split; assumption).
  assert (exists h', last_n (o_max_history o) (h ++ [(s, y)]) = h' ++ [(s, y)]) as [h' Eh].
  { unfold last_n. rewrite skipn_app, app_length. cbn [length]. replace (length h + 1 - o_max_history o - length h)%nat with O by lia. eexists. reflexivity. }
  pose proof (last_n_length (o_max_history o) (h ++ [(s, y)])) as L2. rewrite Eh in D2, L2.
  set (d2 := set_sigma d1 sg) in *.
  assert (Hk : (0 < d_mem d2 <= o_max_history o)%nat).
  { rewrite (dv_mem _ _ _ D2). rewrite app_length in *. cbn [length] in *. lia. }
  pose proof (HE (d_mem d2) (symlow (sr1_Z (d_mem d2) d2)) Hk (symlow_sym _)) as HEE.
  destruct (o_eig o (d_mem d2) (symlow (sr1_Z (d_mem d2) d2))) as [E Q]. cbn [fst snd] in HEE.
  destruct (split_eigenvalues (d_mem d2) E Q) as [[Qm Qp]|] eqn:ES; intros X; injection X as <- <- <- <-.
  - split; [|split].
    + exists (h' ++ [(s, y)]). split; [destruct D2; split; assumption|assumption].
    + exists h. auto.
    + intros _ r. apply (sr1_secant n h' s y d2 E Q Qm Qp D2 HEE ES).
  - split; [exists h; auto|]. split; [exists h; auto|]. discriminate.
Qed.
Lemma sr1_reachable o n sg its : eig_correct o -> (0 < o_max_history o)%nat -> o_type o = SR1 ->
  consistent o n (st_data (run o n (nothing sg (o_fresh o)) its)) /\ consistent o n (st_backup (run o n (nothing sg (o_fresh o)) its)).
Proof.
  intros HE Hm Ht. assert (N : forall s, consistent o n (nothing s (o_fresh o))).
  { intros s. exists []. split; [|cbn; lia]. split; cbn; auto; intros i j; lia. }
  induction its as [|it its IH] using rev_ind; [split; apply N|].
  unfold run in *. rewrite fold_left_app. cbn [fold_left]. set (st := fold_left _ its _) in *. destruct IH as [I1 I2].
  unfold update_hessian. destruct (st_last st) as [last|]; [|split; [apply N|assumption]].
  destruct (o_max_skipping o <=? st_skipped st)%nat; [split; [apply N|assumption]|].
  destruct (Rlt_bool (amax n (s_new last it)) (100 * o_eps o)); [auto|]. rewrite Ht.
  destruct (sr1 o n (i_regu it) (s_new last it) (y_new last it) (st_data st) (st_backup st)) as [[[sk retro] d'] b'] eqn:E.
  destruct (sr1_step _ _ _ _ _ _ _ _ _ _ _ HE Hm I1 I2 E) as (J1 & J2 & _). destruct sk; auto.
Qed.
Lemma update_last o n it st : st_last (update_hessian o n it st) = Some it.
Proof.
  unfold update_hessian. destruct (st_last st) as [l|]; [|reflexivity]. destruct (o_max_skipping o <=? st_skipped st)%nat; [reflexivity|].
  destruct (Rlt_bool (amax n (s_new l it)) (100 * o_eps o)); [reflexivity|]. destruct (o_type o).
  - destruct (bfgs o n (s_new l it) (y_new l it) (st_data st)) as [[] ?]; reflexivity.
  - destruct (sr1 o n (i_regu it) (s_new l it) (y_new l it) (st_data st) (st_backup st)) as [[[[] ?] ?] ?]; reflexivity.
Qed.
(** After every update the SR1 matrix is the previous one, or a multiple of the identity
    after too many skipped updates, or satisfies the secant equation. [nothing sg]: the
    backup counts as empty at the start. *)
Theorem C52_secant o n sg its last it : eig_correct o -> (0 < o_max_history o)%nat -> o_type o = SR1 ->
  let st := run o n (nothing sg (o_fresh o)) (its ++ [last]) in
  let st' := run o n (nothing sg (o_fresh o)) (its ++ [last; it]) in
  (st_W st' = st_W st /\ st_skipped st' = (st_skipped st + 1)%nat) \/
  ((o_max_skipping o <= st_skipped st)%nat /\ exists W, st_W st' = Some W /\ forall x i, lr_mult n W x i = o_init_val o * x i) \/
  ((st_skipped st < o_max_skipping o)%nat /\ 100 * o_eps o <= amax n (fst (pair_of last it)) /\
   exists W, st_W st' = Some W /\ forall i, lr_mult n W (fst (pair_of last it)) i = snd (pair_of last it) i).
Proof.
  intros HE Hm Ht. cbn zeta. replace (its ++ [last; it]) with ((its ++ [last]) ++ [it]) by (rewrite <- app_assoc; reflexivity).
  destruct (sr1_reachable o n sg (its ++ [last]) HE Hm Ht) as [I1 I2].
  assert (El : st_last (run o n (nothing sg (o_fresh o)) (its ++ [last])) = Some last).
  { unfold run. rewrite fold_left_app. apply update_last. }
  unfold run in *. rewrite (fold_left_app _ (its ++ [last]) [it]). cbn [fold_left]. set (st := fold_left _ (its ++ [last]) _) in *.
  remember (update_hessian o n it st) as st' eqn:Es. unfold update_hessian in Es. rewrite El, Ht in Es.
  rewrite <- (y_new_pair last it). cbn [fst snd].
  destruct (o_max_skipping o <=? st_skipped st)%nat eqn:Ek.
  { apply Nat.leb_le in Ek. subst st'. right. left. split; [assumption|]. eexists. split; [reflexivity|]. intros x i. unfold lr_mult. cbn. ring. }
  apply Nat.leb_gt in Ek.
  destruct (Rlt_bool_spec (amax n (s_new last it)) (100 * o_eps o)) as [H1|H1]; [subst st'; left; split; reflexivity|].
  destruct (sr1 o n (i_regu it) (s_new last it) (y_new last it) (st_data st) (st_backup st)) as [[[sk retro] d'] b'] eqn:E.
  destruct (sr1_step _ _ _ _ _ _ _ _ _ _ _ HE Hm I1 I2 E) as (J1 & J2 & J3).
  destruct sk; subst st'; [left; split; reflexivity|]. right. right. split; [assumption|]. split; [assumption|].
  eexists. split; [reflexivity|]. apply J3. reflexivity.
Qed.
(** Every matrix of this form is symmetric. *)
Theorem C52_symmetric n W : symmetric n (lr_mult n W).
Proof.
  intros x y. unfold lr_mult.
  rewrite dot_minus_r, dot_plus_r, dot_scal_r.
  rewrite (dot_sum_r n _ x (fun j => dot n (col (w_V W) j) y)), (dot_sum_r n _ x (fun j => dot n (col (w_U W) j) y)).
  rewrite (dot_comm n (fun i => _ - _) y), dot_minus_r, dot_plus_r, dot_scal_r.
  rewrite (dot_sum_r n _ y (fun j => dot n (col (w_V W) j) x)), (dot_sum_r n _ y (fun j => dot n (col (w_U W) j) x)).
  rewrite (dot_comm n y x). f_equal; [f_equal|]; apply sumn_ext; intros j _; rewrite (dot_comm n x), (dot_comm n y); ring.
Qed.
(** The number of stored pairs never exceeds the limit. *)
Theorem C52_bounded o n sg its : eig_correct o -> (0 < o_max_history o)%nat -> o_type o = SR1 ->
  let d := st_data (run o n (nothing sg (o_fresh o)) its) in
  (length (d_S d) <= o_max_history o)%nat /\ length (d_Y d) = length (d_S d) /\ d_mem d = length (d_S d).
Proof.
  intros HE Hm Ht d. destruct (sr1_reachable o n sg its HE Hm Ht) as [(h & D & L) _]. fold d in D. destruct D as [D1 D2 D3 _ _ _].
  rewrite D2, D3, !map_length. auto.
Qed.
Example C52_example : let o := ex_options SR1 1 in
  eig_correct o /\ (0 < o_max_history o)%nat /\
  exists W, st_W (run o 1 (nothing 0 (o_fresh o)) [ex_iter 0; ex_iter 1]) = Some W /\ lr_mult 1 W (fun _ => 1) 0%nat = 2.
Proof.
  intros o. assert (HE : eig_correct o).
  { intros k Z Hk Hs. change (o_max_history o) with 1%nat in Hk. assert (k = 1%nat) by lia. subst k. split.
    - intros i j Hi Hj. assert (i = 0%nat) by lia. assert (j = 0%nat) by lia. subst. cbn. unfold delta. cbn. split; ring.
    - intros i j Hij Hj. cbn. lra. }
  split; [assumption|]. split; [cbn; lia|].
  assert (E1 : forall a b, a = b -> Rlt_bool a b = false) by (intros a b ->; apply Rlt_bool_false; lra).
  unfold run. cbn [fold_left]. unfold update_hessian at 2. cbn [initialize st_last].
  unfold update_hessian. cbn [st_last st_skipped]. change (o_max_skipping o <=? 0)%nat with false. cbn iota.
  rewrite Rlt_bool_false.
  2:{ unfold s_new. cbn. replace (1 - 0) with 1 by ring. rewrite Rabs_pos_eq by lra. rewrite Rmax_right; lra. }
  change (o_type o) with SR1. cbn iota.
  destruct (sr1 o 1 _ _ _ _ _) as [[[sk retro] d'] b'] eqn:E. cbn [st_data st_backup initialize ex_iter i_regu] in E.
  assert (C0 : consistent o 1 (nothing (o_init_val o) (o_fresh o))).
  { exists []. split; [|cbn; lia]. split; cbn; auto; intros i j; lia. }
  assert (C1 : consistent o 1 (nothing 0 (o_fresh o))).
  { exists []. split; [|cbn; lia]. split; cbn; auto; intros i j; lia. }
  destruct (sr1_step _ _ _ _ _ _ _ _ _ _ _ HE ltac:(cbn; lia) C0 C1 E) as (_ & _ & J).
  assert (sk = false) as ->.
  { clear J. unfold sr1 in E. cbn [ex_iter i_regu] in E. unfold update_data in E. change (o_max_history o) with 1%nat in E. cbn [Nat.eqb Nat.ltb Nat.leb d_mem nothing] in E.
    cbn [d_mem set_sigma Nat.add Nat.eqb] in E.
    change (o_eig o) with (fun (k : nat) (Z : nat -> nat -> R) => ((fun _ : nat => Z 0%nat 0%nat), (fun i j => delta i j))) in E.
    cbn beta iota zeta in E. unfold split_eigenvalues in E. cbn [seq filter length Nat.sub] in E.
    match type of E with context [Rlt_bool (symlow ?a ?i ?j) 0] => assert (EZ : symlow a i j = 1) end.
    { cbn. unfold sr1_Z, at_, augment_SS, writes. cbn. unfold dot, sumn, y_new, s_new. cbn. ring. }
    rewrite !EZ in E. rewrite (Rlt_bool_false 1 0) in E by lra. cbn [length] in E. rewrite Rabs_R1, Rmax_left in E by lra.
    rewrite Req_bool_false in E by lra. cbn [Nat.eqb] in E. rewrite Rlt_bool_false in E by lra. injection E as <- _ _ _. reflexivity. }
  cbn [st_W]. eexists. split; [reflexivity|]. specialize (J eq_refl 0%nat).
  transitivity (y_new (ex_iter 0) (ex_iter 1) 0%nat); [|unfold y_new; cbn; ring].
  rewrite <- J. f_equal. apply functional_extensionality. intros i. unfold s_new. cbn. ring.
Qed.

Lemma sr1_mem o n s y d b sk retro d' b' : (d_mem b < o_max_history o)%nat -> sr1 o n true s y d b = (sk, retro, d', b') ->
  (d_mem d' = d_mem b /\ d_S d' = d_S b) \/ (d_mem d' = (d_mem b + 1)%nat /\ d_S d' = d_S b ++ [s]).
Proof.
  intros Hm. unfold sr1, update_data. replace (o_max_history o =? 0)%nat with false by (symmetry; apply Nat.eqb_neq; lia).
  replace (d_mem b <? o_max_history o)%nat with true by (symmetry; apply Nat.ltb_lt; assumption).
  destruct (o_eig o _ _) as [E Q]. destruct (split_eigenvalues _ E Q) as [[Qm Qp]|]; intros X; injection X as <- <- <- <-; [right|left]; auto.
Qed.
(** The claim that the stored data always describe stored pairs fails when the first SR1
    update follows a regularised step: the backup it goes back to was never written
    (curr_lm_memory_old_ is not initialised). *)
Theorem C52_uninitialised_backup_refuted : exists garbage its, d_S garbage = [] /\ d_Y garbage = [] /\
  let d := st_data (run (ex_options SR1 6) 1 garbage its) in d_mem d <> length (d_S d).
Proof.
  set (o := ex_options SR1 6).
  exists (Data 5 [] [] [] [] (fun _ => 0) (fun _ => 0) 0 [] []).
  exists [ex_iter 0; Iter (fun _ => 1) (fun _ => 2) (fun _ _ => 0) (fun _ _ => 0) vzero vzero true].
  split; [reflexivity|]. split; [reflexivity|].
  match goal with |- let d := ?t in _ => generalize (eq_refl t); generalize t at 2 3 end. cbv zeta. intros d.
  unfold run. cbn [fold_left]. unfold update_hessian at 2. cbn [initialize st_last].
  unfold update_hessian. cbn [st_last st_skipped]. change (o_max_skipping o <=? 0)%nat with false. cbn iota.
  rewrite Rlt_bool_false.
  2:{ unfold s_new. cbn. replace (1 - 0) with 1 by ring. rewrite Rabs_pos_eq by lra. rewrite Rmax_right; lra. }
  change (o_type o) with SR1. cbn iota. cbn [st_data st_backup initialize i_regu].
  set (b := Data 5 _ _ _ _ _ _ _ _ _).
  assert (Hb : (d_mem b < o_max_history o)%nat) by (cbn; lia). assert (Hb5 : d_mem b = 5%nat) by reflexivity. assert (HbS : d_S b = []) by reflexivity.
  clearbody b. destruct (sr1 o 1 true _ _ _ b) as [[[sk retro] d'] b'] eqn:E.
  destruct (sr1_mem _ _ _ _ _ _ _ _ _ _ Hb E) as [[E1 E2]|[E1 E2]]; destruct sk; cbn [st_data]; intros <-; rewrite E1, E2, Hb5, HbS; cbn [length app]; lia.
Qed.
(** A reset does not clear the backup: a regularised step after the reset brings back the
    pairs from before it. *)
Theorem C52_reset_undone o n st it it' hb : eig_correct o -> (0 < o_max_history o)%nat -> o_type o = SR1 -> (0 < o_max_skipping o)%nat ->
  dinv n hb (st_backup st) -> (length hb <= o_max_history o)%nat -> (o_max_skipping o <= st_skipped st)%nat -> st_last st <> None ->
  100 * o_eps o <= amax n (s_new it it') -> i_regu it' = true ->
  let st1 := update_hessian o n it st in
  let st2 := update_hessian o n it' st1 in
  d_S (st_data st1) = [] /\
  (d_S (st_data st2) = map fst hb \/ d_S (st_data st2) = map fst (last_n (o_max_history o) (hb ++ [pair_of it it']))).
Proof.
  intros HE Hm Ht Hms Hb Lb Hk Hl Ha Hr. cbn zeta.
  assert (E1 : update_hessian o n it st = State (nothing (o_init_val o) (o_fresh o)) (st_backup st) (Some it) 0 (Some (setW (nothing (o_init_val o) (o_fresh o))))).
  { unfold update_hessian. destruct (st_last st); [|reflexivity]. replace (o_max_skipping o <=? st_skipped st)%nat with true by (symmetry; apply Nat.leb_le; assumption). reflexivity. }
  rewrite E1. split; [reflexivity|]. unfold update_hessian. cbn [st_last st_skipped st_data st_backup].
  replace (o_max_skipping o <=? 0)%nat with false by (symmetry; apply Nat.leb_gt; assumption).
  rewrite Rlt_bool_false by assumption. rewrite Ht. cbn iota.
  unfold sr1. rewrite Hr.
  destruct (update_data_inv n (o_max_history o) (o_fresh o) (s_new it it') (y_new it it') (st_backup st) hb Hb Lb Hm) as (I1 & _).
  destruct (update_data n (o_max_history o) (o_fresh o) (s_new it it') (y_new it it') (st_backup st)) as [aug d1]. cbn [snd] in I1.
  replace (o_max_history o =? 0)%nat with false by (symmetry; apply Nat.eqb_neq; lia).
  destruct (o_eig o _ _) as [E Q]. destruct (split_eigenvalues _ E Q) as [[Qm Qp]|]; cbn [st_data d_S set_VU set_sigma].
  - right. rewrite (dv_S _ _ _ I1). rewrite <- y_new_pair. reflexivity.
  - left. apply (dv_S _ _ _ Hb).
Qed.

(** ** restoration phase *)
(** In the restoration phase the secant equation fails with two pairs: the products kept
    are computed with eta s + ypart instead of eta D_R s + ypart. Two variables,
    D_R = diag(4,1), eta = 1, limited_memory_initialization=constant with value 9/4. *)
Definition v2 (a b : R) : vec := fun i => if (i =? 0)%nat then a else if (i =? 1)%nat then b else 0.
Definition rs_options : options :=
  Opts 6 BFGS CONSTANT (9 / 4) 2 100000000 (1 / 100000000) (1 / 4503599627370496) exact_chol cholC
    (fun k Z => (fun _ => 0, fun i j => 0)) (fun _ => 0).
Lemma sqrt_of x y : 0 <= y -> x = y * y -> sqrt x = y.
Proof. intros H ->. apply sqrt_square. assumption. Qed.
Lemma eps_small n s y b : 0 <= b -> dot n s s <= b * b -> dot n y y <= b * b -> b * b <= 10000 -> 1 <= dot n s y -> skip_bfgs rs_options n s y = false.
Proof.
  intros Hb H1 H2 H3 H4. unfold skip_bfgs. apply Rle_bool_false. eapply Rlt_le_trans; [|exact H4].
  assert (E : sqrt (o_eps rs_options) = 1 / 67108864). { apply sqrt_of; cbn; lra. } rewrite E.
  assert (N1 : nrm2 n s <= b). { unfold nrm2. rewrite <- (sqrt_square b) by assumption. apply sqrt_le_1_alt. assumption. }
  assert (N2 : nrm2 n y <= b). { unfold nrm2. rewrite <- (sqrt_square b) by assumption. apply sqrt_le_1_alt. assumption. }
  pose proof (nrm2_nonneg n s). pose proof (nrm2_nonneg n y).
  assert (nrm2 n s * nrm2 n y <= b * b) by (apply Rmult_le_compat; assumption). nra.
Qed.
Lemma rs_lapack : lapack_ok rs_options. Proof. apply exact_chol_ok; reflexivity. Qed.
Lemma dot2 u v : dot 2 u v = u 0%nat * v 0%nat + u 1%nat * v 1%nat.
Proof. unfold dot, sumn. ring. Qed.
Lemma rs_sigma n a s y : project_sigma rs_options (sigma0 rs_options n a s y) = 9 / 4.
Proof. rewrite project_sigma_clamp. unfold clamp, sigma0. cbn. rewrite Rmin_right, Rmax_left; lra. Qed.
Lemma rs_step1 : exists d1, bfgs_resto rs_options 2 1 (v2 4 1) (v2 1 0) (v2 0 1) (nothing (9 / 4) (o_fresh rs_options)) = (false, d1) /\
  d_mem d1 = 1%nat /\ d_S d1 = [v2 1 0] /\ d_Ypart d1 = [v2 0 1] /\ d_SS d1 0%nat = 1 /\
  exists v, d_V d1 = [v] /\ v 0%nat = 2 /\ v 1%nat = 1 / 2.
Proof.
  unfold bfgs_resto. set (y := y_resto 1 (v2 4 1) (v2 1 0) (v2 0 1)).
  assert (Y0 : y 0%nat = 4) by (unfold y, y_resto; cbn; ring). assert (Y1 : y 1%nat = 1) by (unfold y, y_resto; cbn; ring).
  assert (Esy : dot 2 (v2 1 0) y = 4) by (rewrite dot2, Y0, Y1; cbn; ring).
  rewrite (eps_small 2 (v2 1 0) y 10) by (rewrite ?Esy, ?dot2, ?Y0, ?Y1; cbn; lra).
  unfold update_data_resto. change (o_max_history rs_options) with 6%nat. cbn [Nat.eqb nothing d_mem Nat.ltb Nat.leb d_S d_Ypart d_SS d_V d_U d_sigma augment_mv app length Nat.add].
  set (L := recalc_L _ _ _ _). set (SS := augment_SS _ _ _ _ _).
  assert (ESS : SS 0%nat = 1). { unfold SS, augment_SS, writes. cbn. ring. }
  assert (ED : recalc_D 2 [v2 1 0] (recalc_Y 1 [v2 1 0] [v2 0 1]) = [1]).
  { unfold recalc_D, recalc_Y. cbn [length seq map combine]. f_equal. rewrite dot2. cbn. ring. }
  assert (EL : L 0%nat = 0). { unfold L, recalc_L, writes. cbn. reflexivity. }
  rewrite ED. cbn [d_D existsb]. rewrite Rle_bool_false by lra. cbn [orb].
  rewrite rs_sigma, Esy. set (d3 := set_VU _ _ _).
  destruct (rs_lapack 1%nat (symlow (bfgs_M 1 d3)) ltac:(intros; apply symlow_sym)) as [_ HN].
  assert (EM : bfgs_M 1 d3 0 0 = 9 / 4).
  { unfold bfgs_M, ltilde, at_, sumn. cbn [d3 set_VU set_sigma d_L d_SS d_sigma d_D]. cbn [Nat.add Nat.mul]. rewrite EL, ESS. ring. }
  unfold bfgs_U. change (d_mem d3) with 1%nat.
  destruct (o_chol rs_options 1 (symlow (bfgs_M 1 d3))) as [J|].
  2:{ exfalso. apply HN; [|reflexivity]. split; [intros; apply symlow_sym|]. intros a (i & Hi & Ha). assert (i = 0%nat) by lia. subst i.
      unfold sumn. change (symlow (bfgs_M 1 d3) 0%nat 0%nat) with (bfgs_M 1 d3 0%nat 0%nat). rewrite EM. nra. }
  eexists. split; [reflexivity|]. split; [reflexivity|]. split; [reflexivity|]. split; [reflexivity|]. split; [exact ESS|].
  eexists. split; [reflexivity|]. cbv beta. rewrite Y0, Y1. rewrite (sqrt_of 4 2) by lra. split; lra.
Qed.
Theorem C51_restoration_secant_refuted :
  let o := rs_options in
  let DR := v2 4 1 in
  let '(sk1, d1) := bfgs_resto o 2 1 DR (v2 1 0) (v2 0 1) (nothing (9 / 4) (o_fresh o)) in
  let '(sk2, d2) := bfgs_resto o 2 1 DR (v2 1 1) (v2 0 (-1)) d1 in
  lapack_ok o /\ sk1 = false /\ sk2 = false /\ lr_mult 2 (setW d2) (v2 1 1) 0%nat <> y_resto 1 DR (v2 1 1) (v2 0 (-1)) 0%nat.
Proof.
  intros o DR. destruct rs_step1 as (d1 & E1 & M1 & S1 & P1 & SS1 & v & V1 & V10 & V11). unfold o, DR. rewrite E1. clear E1.
  unfold bfgs_resto. set (y := y_resto 1 (v2 4 1) (v2 1 1) (v2 0 (-1))).
  assert (Y0 : y 0%nat = 4) by (unfold y, y_resto; cbn; ring). assert (Y1 : y 1%nat = 0) by (unfold y, y_resto; cbn; ring).
  assert (Esy : dot 2 (v2 1 1) y = 4) by (rewrite dot2, Y0, Y1; cbn; ring).
  rewrite (eps_small 2 (v2 1 1) y 10) by (rewrite ?Esy, ?dot2, ?Y0, ?Y1; cbn; lra).
  unfold update_data_resto. change (o_max_history rs_options) with 6%nat. rewrite M1, S1, P1. cbn [Nat.eqb Nat.ltb Nat.leb augment_mv app length Nat.add].
  set (L := recalc_L _ _ _ _). set (SS := augment_SS _ _ _ _ _).
  assert (ESS : SS 0%nat = 1 /\ SS 1%nat = 1 /\ SS 3%nat = 2).
  { unfold SS, augment_SS, writes. cbn. rewrite SS1. repeat split; ring. }
  assert (ED : recalc_D 2 [v2 1 0; v2 1 1] (recalc_Y 1 [v2 1 0; v2 1 1] [v2 0 1; v2 0 (-1)]) = [1; 1]).
  { unfold recalc_D, recalc_Y. cbn [length seq map combine]. rewrite !dot2. f_equal; [cbn; ring|]. f_equal. cbn. ring. }
  assert (EL : L 0%nat = 0 /\ L 1%nat = 2 /\ L 2%nat = 0 /\ L 3%nat = 0).
  { unfold L, recalc_L, writes. cbn. repeat split; ring. }
  destruct ESS as (SSa & SSb & SSc). destruct EL as (La & Lb & Lc & Ld).
  rewrite ED. cbn [d_D existsb]. rewrite Rle_bool_false by lra. cbn [orb].
  rewrite rs_sigma, Esy, V1. cbn [augment_mv app d_V set_sigma]. set (d3 := set_VU _ _ _).
  destruct (rs_lapack 2%nat (symlow (bfgs_M 2 d3)) ltac:(intros; apply symlow_sym)) as [HJ HN].
  assert (EM : bfgs_M 2 d3 0 0 = 9 / 4 /\ bfgs_M 2 d3 1 0 = 9 / 4 /\ bfgs_M 2 d3 1 1 = 17 / 2).
  { unfold bfgs_M, ltilde, at_, sumn. cbn [d3 set_VU set_sigma d_L d_SS d_sigma d_D nth]. cbn [Nat.add Nat.mul]. rewrite La, Lb, Lc, Ld, SSa, SSb, SSc.
    rewrite (sqrt_of 1 1) by lra. repeat split; field. }
  destruct EM as (Ma & Mb & Mc).
  assert (EMs : symlow (bfgs_M 2 d3) 0%nat 0%nat = 9 / 4 /\ symlow (bfgs_M 2 d3) 0%nat 1%nat = 9 / 4 /\ symlow (bfgs_M 2 d3) 1%nat 0%nat = 9 / 4 /\ symlow (bfgs_M 2 d3) 1%nat 1%nat = 17 / 2).
  { unfold symlow. cbn [Nat.leb]. auto. }
  destruct EMs as (Na & Nb & Nc & Nd).
  unfold bfgs_U. change (d_mem d3) with 2%nat.
  destruct (o_chol rs_options 2 (symlow (bfgs_M 2 d3))) as [J|].
  2:{ exfalso. apply HN; [|reflexivity]. split; [intros; apply symlow_sym|]. intros a (i & Hi & Ha).
      unfold sumn. rewrite Na, Nb, Nc, Nd.
      assert (0 < 9 / 4 * ((a 0%nat + a 1%nat) * (a 0%nat + a 1%nat)) + 25 / 4 * (a 1%nat * a 1%nat)); [|lra].
      assert (0 <= (a 0%nat + a 1%nat) * (a 0%nat + a 1%nat)) by apply Rle_0_sqr.
      destruct (Req_dec (a 1%nat) 0) as [E|E]; [|assert (0 < a 1%nat * a 1%nat) by (apply Rsqr_pos_lt; assumption); lra].
      rewrite E. assert (a 0%nat <> 0); [|assert (0 < a 0%nat * a 0%nat) by (apply Rsqr_pos_lt; assumption); lra].
      destruct i as [|[|]]; [assumption|contradiction|lia]. }
  specialize (HJ J eq_refl). set (C := o_inv rs_options 2 J) in *.
  split; [apply rs_lapack|]. split; [reflexivity|]. split; [reflexivity|].
  rewrite Y0. unfold lr_mult, setW. cbn [w_diag w_V w_U set_VU d_sigma d_V d_U map seq length]. cbn [d3 set_VU set_sigma d_sigma d_V d_S length].
  unfold col. cbn [nth].
  assert (H00 := HJ 0%nat 0%nat ltac:(lia) ltac:(lia)). assert (H01 := HJ 0%nat 1%nat ltac:(lia) ltac:(lia)).
  assert (H10 := HJ 1%nat 0%nat ltac:(lia) ltac:(lia)). assert (H11 := HJ 1%nat 1%nat ltac:(lia) ltac:(lia)).
  unfold sumn, delta in H00, H01, H10, H11. cbn [Nat.eqb] in H00, H01, H10, H11. rewrite Na in H00. rewrite Nb in H01. rewrite Nc in H10. rewrite Nd in H11.
  fold C in H00, H01, H10, H11.
  set (C00 := C 0%nat 0%nat) in *. set (C01 := C 0%nat 1%nat) in *. set (C10 := C 1%nat 0%nat) in *. set (C11 := C 1%nat 1%nat) in *.
  set (J00 := J 0%nat 0%nat) in *. set (J01 := J 0%nat 1%nat) in *. set (J10 := J 1%nat 0%nat) in *. set (J11 := J 1%nat 1%nat) in *.
  (* C C' is the inverse of M *)
  assert (Q : C00 * C00 + C01 * C01 = 136 / 225 /\ C00 * C10 + C01 * C11 = - (4 / 25) /\ C10 * C10 + C11 * C11 = 4 / 25).
  { destruct H00 as (A1 & A2 & A3), H01 as (B1 & B2 & B3), H10 as (D1 & D2 & D3), H11 as (F1 & F2 & F3).
    (* M (C C') = J (J' C) C' = J C' = I *)
    assert (X1 : 9 / 4 * (C00 * C00 + C01 * C01) + 9 / 4 * (C00 * C10 + C01 * C11) = 1).
    { rewrite A1 at 1. rewrite B1.
      replace ((0 + J00 * J00 + J01 * J01) * (C00 * C00 + C01 * C01) + (0 + J00 * J10 + J01 * J11) * (C00 * C10 + C01 * C11))
        with (J00 * (C00 * (0 + J00 * C00 + J10 * C10) + C01 * (0 + J00 * C01 + J10 * C11)) + J01 * (C00 * (0 + J01 * C00 + J11 * C10) + C01 * (0 + J01 * C01 + J11 * C11))) by ring.
      rewrite A2, B2, D2, F2. lra. }
    assert (X2 : 9 / 4 * (C00 * C10 + C01 * C11) + 9 / 4 * (C10 * C10 + C11 * C11) = 0).
    { rewrite A1 at 1. rewrite B1.
      replace ((0 + J00 * J00 + J01 * J01) * (C00 * C10 + C01 * C11) + (0 + J00 * J10 + J01 * J11) * (C10 * C10 + C11 * C11))
        with (J00 * (C10 * (0 + J00 * C00 + J10 * C10) + C11 * (0 + J00 * C01 + J10 * C11)) + J01 * (C10 * (0 + J01 * C00 + J11 * C10) + C11 * (0 + J01 * C01 + J11 * C11))) by ring.
      rewrite A2, B2, D2, F2. lra. }
    assert (X3 : 9 / 4 * (C00 * C10 + C01 * C11) + 17 / 2 * (C10 * C10 + C11 * C11) = 1).
    { rewrite D1 at 1. rewrite F1.
      replace ((0 + J10 * J00 + J11 * J01) * (C00 * C10 + C01 * C11) + (0 + J10 * J10 + J11 * J11) * (C10 * C10 + C11 * C11))
        with (J10 * (C10 * (0 + J00 * C00 + J10 * C10) + C11 * (0 + J00 * C01 + J10 * C11)) + J11 * (C10 * (0 + J01 * C00 + J11 * C10) + C11 * (0 + J01 * C01 + J11 * C11))) by ring.
      rewrite A2, B2, D2, F2. lra. }
    repeat split; lra. }
  destruct Q as (Q1 & Q2 & Q3).
  assert (Lt : ltilde 2 d3 0 0 = 0 /\ ltilde 2 d3 0 1 = 0 /\ ltilde 2 d3 1 0 = 2 /\ ltilde 2 d3 1 1 = 0).
  { unfold ltilde, at_. cbn [d3 set_VU set_sigma d_L d_D nth]. cbn [Nat.add Nat.mul]. rewrite La, Lb, Lc, Ld, (sqrt_of 1 1) by lra. repeat split; field. }
  destruct Lt as (T1 & T2 & T3 & T4).
  unfold sumn. rewrite !dot2. cbv beta. rewrite T1, T2, T3, T4. fold C00 C01 C10 C11. rewrite V10, V11, Y0, Y1. rewrite (sqrt_of 4 2) by lra.
  cbn [v2 Nat.eqb].
  match goal with |- ?e <> 4 => replace e with (9 / 4 + 5 + 4 - ((C00 * C00 + C01 * C01) * (9 / 4) * (9 / 4) + (C00 * C10 + C01 * C11) * (9 / 4 * (25 / 4) + (25 / 4 + 13 / 4) * (9 / 4)) + (C10 * C10 + C11 * C11) * (25 / 4 + 13 / 4) * (25 / 4))) by (unfold v2; cbn [Nat.eqb]; field) end.
  rewrite Q1, Q2, Q3. lra.
Qed.

Print Assumptions C35_one_history.
Print Assumptions C35_stored_pairs.
Print Assumptions C35_products.
Print Assumptions C51_bfgs_formula.
Print Assumptions C51_positive_definite.
Print Assumptions C51_secant.
Print Assumptions C51_skip_and_reset.
Print Assumptions C51_restoration_secant_refuted.
Print Assumptions C52_secant.
Print Assumptions C52_symmetric.
Print Assumptions C52_bounded.
Print Assumptions C52_uninitialised_backup_refuted.
Print Assumptions C52_reset_undone.
