(** Lemmas about expansion matrices. *)
From Coq Require Import List Bool Arith ZArith Reals Lia Lra.
From Flocq Require Import Core BinarySingleNaN.
From Verif Require Import Num VecModel VecSpec VecProofs VecReal VecNum VecFresh ExpModel ExpSpec.
Import ListNotations.
Set Implicit Arguments.
Local Open Scope nat_scope.

Lemma nth_upd_same {A} (d : A) p a l : p < length l -> nth p (upd p a l) d = a.
Proof. revert l; induction p; intros [|b l]; simpl; intros; auto; try lia. apply IHp. lia. Qed.
Lemma nth_upd_other {A} (d : A) p j a l : p <> j -> nth j (upd p a l) d = nth j l d.
Proof. revert j l; induction p; intros [|j] [|b l]; simpl; intros; auto; try lia. Qed.

Section Gen.
Context {T : Type} (O : nops T) (L : laws O).
Notation z0 := (t0 O).

Section Scatter.
Context {A : Type} (f : T -> A -> T).
Lemma scatter_length pos : forall x y, length (scatter O f pos x y) = length y.
Proof. induction pos as [|p pos IH]; intros [|a x] y; simpl; auto. rewrite IH. apply upd_length. Qed.
Lemma scatter_out pos j : ~ In j pos -> forall x y, nth j (scatter O f pos x y) z0 = nth j y z0.
Proof.
  induction pos as [|p pos IH]; intros N [|a x] y; simpl; auto. rewrite IH by (intro; apply N; right; auto).
  apply nth_upd_other. intro; apply N; left; auto.
Qed.
Lemma scatter_in (d : A) pos : NoDup pos -> forall x y i, length x = length pos -> i < length pos -> (forall p, In p pos -> p < length y) ->
  nth (nth i pos 0) (scatter O f pos x y) z0 = f (nth (nth i pos 0) y z0) (nth i x d).
Proof.
  induction 1 as [|p pos N ND IH]; intros [|a x] y i Lx Li R; simpl in *; try lia.
  destruct i as [|i].
  - rewrite scatter_out by exact N. apply nth_upd_same. apply R; auto.
  - rewrite IH by (auto; try lia; intros; rewrite upd_length; auto).
    rewrite nth_upd_other; auto. intros ->. apply N. apply nth_In. lia.
Qed.
End Scatter.

Lemma nth_map' {A B} (g : A -> B) i (a : A) (b : B) l : i < length l -> nth i (map g l) b = g (nth i l a).
Proof. intros. rewrite (nth_indep _ b (g a)) by (rewrite map_length; auto). apply map_nth. Qed.
Lemma map2_length {A B C} (g : A -> B -> C) l m : length l = length m -> length (map2 g l m) = length l.
Proof. revert m; induction l; intros [|b m]; simpl; intros; auto; try lia. Qed.
Lemma map3_length {A B C D} (g : A -> B -> C -> D) l m k : length l = length m -> length l = length k -> length (map3 g l m k) = length l.
Proof. revert m k; induction l; intros [|b m] [|c k]; simpl; intros; auto; try lia. Qed.
Lemma nth_map2 {A B C} (g : A -> B -> C) i a b c l m : length l = length m -> i < length l -> nth i (map2 g l m) c = g (nth i l a) (nth i m b).
Proof. revert m i; induction l; intros [|b' m] [|i]; simpl; intros; auto; try lia. apply IHl; lia. Qed.
Lemma nth_map3 {A B C D} (g : A -> B -> C -> D) i a b c d l m k : length l = length m -> length l = length k -> i < length l ->
  nth i (map3 g l m k) d = g (nth i l a) (nth i m b) (nth i k c).
Proof. revert m k i; induction l; intros [|b' m] [|c' k] [|i]; simpl; intros; auto; try lia. apply IHl; lia. Qed.

Definition base (beta u : T) : T := if teq O beta z0 then z0 else tmul O u beta.

Lemma rep_nth n e (d : dvec T) i : drep n e d -> i < n -> nth i (dden n d) z0 = e i.
Proof. intros [_ E] H. rewrite E. rewrite (@nth_map' _ _ e i 0%nat) by (rewrite seq_length; auto). rewrite seq_nth; auto. Qed.
Lemma rep_self n (d : dvec T) : dok n d -> drep n (fun i => nth i (dden n d) z0) d.
Proof.
  intros H. split; [exact H|]. pose proof (list_fun z0 (dden n d)) as E. rewrite (dden_length _ _ H) in E. exact E.
Qed.

Lemma values_ok n junk (v : dvec T) : dok n v ->
  length (vlist (d_values n junk v)) = n /\ forall i, nth i (vlist (d_values n junk v)) z0 = nth i (dden n v) z0.
Proof.
  intros H. pose proof (values_rep n junk _ _ (rep_self H)) as [V1 V2].
  assert (HF : hom (d_values n junk v) = false) by (unfold d_values; destruct (init v && hom v); reflexivity).
  unfold dden in V2 at 1. rewrite HF in V2. rewrite V2. rewrite map_length, seq_length. split; auto.
  intros i. destruct (Nat.lt_ge_cases i n) as [Hi|Hi].
  - rewrite (@nth_map' _ _ _ i 0%nat) by (rewrite seq_length; auto). rewrite seq_nth; auto.
  - rewrite !nth_overflow; auto. rewrite (dden_length _ _ H); auto. rewrite map_length, seq_length; auto.
Qed.
Lemma y_part_ok n junk beta y : (teq O beta z0 = false -> dok n y) ->
  let l := vlist (y_part O n junk beta y) in
  length l = n /\ forall i, i < n -> nth i l z0 = base beta (nth i (dden n y) z0).
Proof.
  intros H l. subst l. unfold y_part, base. destruct (teq O beta z0) eqn:E; cbn [negb].
  - assert (K : dok n (d_set z0 y)) by apply (set_rep n z0 y).
    destruct (values_ok junk K) as [V1 V2]. split; [exact V1|]. intros i Hi. rewrite V2.
    rewrite (rep_nth (set_rep n z0 y) Hi). reflexivity.
  - specialize (H eq_refl). pose proof (scal_rep O L n beta _ _ (rep_self H)) as K.
    destruct (values_ok junk (proj1 K)) as [V1 V2]. split; [exact V1|]. intros i Hi. rewrite V2, (rep_nth K Hi). reflexivity.
Qed.

(** the formula used for an element *)
Definition added (h : bool) (alpha u x : T) : T :=
  if h then if teq O (tmul O alpha x) z0 then u else tadd O u (tmul O alpha x)
  else if teq O alpha (t1 O) then tadd O u x else if teq O alpha (tm1 O) then tsub O u x else tadd O u (tmul O alpha x).

Lemma hom_nth n (x : dvec T) i : hom x = true -> i < n -> nth i (dden n x) z0 = scal x.
Proof. intros H Hi. unfold dden. rewrite H. revert i Hi. induction n; intros [|i] Hi; simpl; auto; try lia. apply IHn. lia. Qed.

Lemma with_ok n (y : dvec T) l : length l = n -> dok n (with_values y l) /\ dden n (with_values y l) = l.
Proof.
  intros H. split; [|reflexivity]. split; [reflexivity|]. split; [intros _; exists l; auto|]. intros l' E. injection E as <-. exact H.
Qed.

Lemma mult_gen nrows pos junk alpha x beta y : positions nrows pos -> dok (length pos) x -> (teq O beta z0 = false -> dok nrows y) ->
  let y' := e_mult O nrows pos junk alpha x beta y in
  dok nrows y' /\
  (forall i, i < length pos -> nth (nth i pos 0) (dden nrows y') z0 =
     added (hom x) alpha (base beta (nth (nth i pos 0) (dden nrows y) z0)) (nth i (dden (length pos) x) z0)) /\
  (forall j, j < nrows -> ~ In j pos -> nth j (dden nrows y') z0 = base beta (nth j (dden nrows y) z0)).
Proof.
  intros [ND RG] Hx Hy y'. destruct (y_part_ok junk beta Hy) as [L1 L2]. cbv zeta in L1, L2.
  set (ys := vlist (y_part O nrows junk beta y)) in *.
  assert (RG' : forall p, In p pos -> p < length ys) by (rewrite L1; exact RG).
  assert (LX : length (dden (length pos) x) = length pos) by (apply dden_length; auto).
  subst y'. unfold e_mult. fold ys.
  match goal with |- dok _ (with_values _ ?l) /\ _ => assert (LL : length l = nrows); [|destruct (@with_ok nrows (y_part O nrows junk beta y) _ LL) as [W1 W2]; rewrite W2; split; [exact W1|]] end.
  { destruct (hom x); [destruct (negb _)|destruct (teq O alpha (t1 O)); [|destruct (teq O alpha (tm1 O))]]; rewrite ?scatter_length; exact L1. }
  unfold added. destruct (hom x) eqn:HX.
  - split.
    + intros i Hi. rewrite (@hom_nth _ _ _ HX Hi). destruct (teq O (tmul O alpha (scal x)) z0); cbn [negb].
      * apply L2. apply RG. apply nth_In; auto.
      * rewrite (scatter_in _ z0) by (auto; apply repeat_length). rewrite L2; [reflexivity|]. apply RG. apply nth_In; auto.
    + intros j Hj N. destruct (negb _); rewrite ?scatter_out by auto; apply L2; auto.
  - assert (EX : dden (length pos) x = vlist x) by (unfold dden; rewrite HX; reflexivity). rewrite EX in *.
    split.
    + intros i Hi. assert (P : nth i pos 0 < nrows) by (apply RG, nth_In; auto).
      destruct (teq O alpha (t1 O)); [|destruct (teq O alpha (tm1 O))]; rewrite (scatter_in _ z0) by auto; rewrite L2 by auto; reflexivity.
    + intros j Hj N. destruct (teq O alpha (t1 O)); [|destruct (teq O alpha (tm1 O))]; rewrite scatter_out by auto; apply L2; auto.
Qed.

Lemma trans_gen nrows pos junk alpha x beta y : positions nrows pos -> dok nrows x -> (teq O beta z0 = false -> dok (length pos) y) ->
  let y' := e_trans O pos junk alpha x beta y in
  dok (length pos) y' /\
  (forall i, i < length pos -> nth i (dden (length pos) y') z0 =
     added (hom x) alpha (base beta (nth i (dden (length pos) y) z0)) (nth (nth i pos 0) (dden nrows x) z0)).
Proof.
  intros [ND RG] Hx Hy y'. destruct (y_part_ok junk beta Hy) as [L1 L2]. cbv zeta in L1, L2.
  set (ys := vlist (y_part O (length pos) junk beta y)) in *.
  subst y'. unfold e_trans. fold ys.
  match goal with |- dok _ (with_values _ ?l) /\ _ => assert (LL : length l = length pos); [|destruct (@with_ok (length pos) (y_part O (length pos) junk beta y) _ LL) as [W1 W2]; rewrite W2; split; [exact W1|]] end.
  { unfold gather. destruct (hom x); [destruct (negb _)|destruct (teq O alpha (t1 O)); [|destruct (teq O alpha (tm1 O))]]; rewrite ?map_length, ?map2_length; auto. }
  unfold added, gather. destruct (hom x) eqn:HX; intros i Hi; assert (P : nth i pos 0 < nrows) by (apply RG, nth_In; auto).
  - rewrite (@hom_nth _ _ _ HX P). destruct (teq O (tmul O alpha (scal x)) z0); cbn [negb].
    + apply L2; auto.
    + rewrite (@nth_map' _ _ _ i z0) by lia. rewrite L2; auto.
  - assert (EX : dden nrows x = vlist x) by (unfold dden; rewrite HX; reflexivity). rewrite EX in *.
    destruct (teq O alpha (t1 O)); [|destruct (teq O alpha (tm1 O))]; rewrite (@nth_map2 _ _ _ _ i z0 0) by (auto; lia); rewrite L2 by auto; reflexivity.
Qed.
End Gen.

(** ** Exact arithmetic *)
Section Reals.
Variable lg : R -> R.
Notation OR := (R_ops lg).
Local Open Scope R_scope.

Lemma Req_bool_iff x y : Req_bool x y = true <-> x = y.
Proof. split; [|apply Req_bool_true]. unfold Req_bool. destruct (Rcompare_spec x y); congruence. Qed.
Lemma teq_R x y : teq OR x y = false <-> x <> y.
Proof.
  cbn [R_ops teq]. pose proof (Req_bool_iff x y) as I. destruct (Req_bool x y); split; intros; try congruence; try reflexivity.
  - exfalso. apply H. apply I. reflexivity.
  - intros E. apply I in E. discriminate.
Qed.
Lemma base_R beta u : base OR beta u = beta * u.
Proof.
  unfold base. destruct (teq OR beta (t0 OR)) eqn:E; cbn [R_ops teq t0 tmul] in *; [apply Req_bool_iff in E; subst; ring|ring].
Qed.
Lemma added_R h alpha u x : added OR h alpha u x = u + alpha * x.
Proof.
  unfold added. cbn [R_ops teq t0 t1 tm1 tmul tadd tsub].
  destruct h.
  - destruct (Req_bool (alpha * x) 0) eqn:E; [apply Req_bool_iff in E; lra|reflexivity].
  - destruct (Req_bool alpha 1) eqn:E1; [apply Req_bool_iff in E1; subst; ring|].
    destruct (Req_bool alpha (-1)) eqn:E2; [apply Req_bool_iff in E2; subst; ring|]. reflexivity.
Qed.

Lemma hom_nthR n (x : dvec R) i : hom x = true -> (i < n)%nat -> nth i (dden n x) 0 = scal x.
Proof. exact (@hom_nth R OR n x i). Qed.

Lemma mult_real nrows pos junk alpha x beta y : positions nrows pos -> dok (length pos) x -> (beta <> 0 -> dok nrows y) ->
  let y' := e_mult OR nrows pos junk alpha x beta y in
  dok nrows y' /\
  (forall i, (i < length pos)%nat -> nth (nth i pos 0%nat) (dden nrows y') 0 =
     beta * nth (nth i pos 0%nat) (dden nrows y) 0 + alpha * nth i (dden (length pos) x) 0) /\
  (forall j, (j < nrows)%nat -> ~ In j pos -> nth j (dden nrows y') 0 = beta * nth j (dden nrows y) 0).
Proof.
  intros P Hx Hy y'. destruct (@mult_gen _ OR (R_laws lg) nrows pos junk alpha x beta y P Hx) as (A & B & C).
  { intros E. apply teq_R in E. auto. }
  split; [exact A|]. split.
  - intros i Hi. specialize (B i Hi). rewrite added_R, base_R in B. exact B.
  - intros j Hj N. specialize (C j Hj N). rewrite base_R in C. exact C.
Qed.
Lemma trans_real nrows pos junk alpha x beta y : positions nrows pos -> dok nrows x -> (beta <> 0 -> dok (length pos) y) ->
  let y' := e_trans OR pos junk alpha x beta y in
  dok (length pos) y' /\
  (forall i, (i < length pos)%nat -> nth i (dden (length pos) y') 0 =
     beta * nth i (dden (length pos) y) 0 + alpha * nth (nth i pos 0%nat) (dden nrows x) 0).
Proof.
  intros P Hx Hy y'. destruct (@trans_gen _ OR (R_laws lg) nrows pos junk alpha x beta y P Hx) as (A & B).
  { intros E. apply teq_R in E. auto. }
  split; [exact A|]. intros i Hi. specialize (B i Hi). rewrite added_R, base_R in B. exact B.
Qed.

Lemma addmsinvz_real nrows pos junk js alpha s z x : positions nrows pos -> (forall n, length (junk n) = n) ->
  dok (length pos) s -> dok (length pos) z -> dok nrows x ->
  let x' := e_addmsinvz OR nrows pos junk js alpha s z x in
  dok nrows x' /\
  (forall i, (i < length pos)%nat -> nth (nth i pos 0%nat) (dden nrows x') 0 =
     nth (nth i pos 0%nat) (dden nrows x) 0 + alpha * (nth i (dden (length pos) z) 0 / nth i (dden (length pos) s) 0)) /\
  (forall j, (j < nrows)%nat -> ~ In j pos -> nth j (dden nrows x') 0 = nth j (dden nrows x) 0).
Proof.
  intros P J Hs Hz Hx x'. subst x'. unfold e_addmsinvz. destruct (hom s) eqn:HS.
  - unfold m_addmsinvz. set (m := length pos). set (tmp := d_addquot OR m (junk m) _ z s _ _).
    assert (TD : dok m tmp /\ dden m tmp = map2 (fun zi si => 1 * zi / si) (dden m z) (dden m s)).
    { exact (fresh_addquot OR (R_laws lg) junk 1 J (Req_bool_true 0 0 eq_refl) m js z s Hz Hs). }
    destruct TD as [T1 T2]. destruct (@mult_real nrows pos (junk nrows) alpha tmp 1 x P T1 (fun _ => Hx)) as (A & B & C).
    split; [exact A|]. split.
    + intros i Hi. cbn [R_ops t1] in *. rewrite (B i Hi). fold m. rewrite T2.
      rewrite (@nth_map2 _ _ _ _ i 0 0) by (rewrite !dden_length; auto). lra.
    + intros j Hj N. cbn [R_ops t1] in *. rewrite (C j Hj N). ring.
  - destruct P as [ND RG]. destruct (@values_ok _ OR nrows (junk nrows) x Hx) as [L1 L2].
    set (xs := vlist (d_values nrows (junk nrows) x)) in *.
    assert (RG' : forall p, In p pos -> (p < length xs)%nat) by (rewrite L1; exact RG).
    assert (LS : length (dden (length pos) s) = length pos) by (apply dden_length; auto).
    assert (LZ : length (dden (length pos) z) = length pos) by (apply dden_length; auto).
    assert (ES : dden (length pos) s = vlist s) by (unfold dden; rewrite HS; reflexivity). rewrite ES in *.
    cbn [R_ops t0 t1 tm1 teq tadd tsub tmul tdiv] in *.
    match goal with |- dok _ (with_values _ ?l) /\ _ => assert (LL : length l = nrows); [|destruct (@with_ok _ nrows (d_values nrows (junk nrows) x) _ LL) as [W1 W2]; rewrite W2; split; [exact W1|]] end.
    { destruct (hom z); [destruct (negb _)|destruct (Req_bool alpha 1); [|destruct (Req_bool alpha (-1))]]; rewrite ?scatter_length; exact L1. }
    destruct (hom z) eqn:HZ.
    + split.
      * intros i Hi. rewrite (@hom_nthR _ _ _ HZ Hi).
        destruct (Req_bool (alpha * scal z) 0) eqn:E; cbn [negb].
        -- rewrite L2. apply Req_bool_iff in E. unfold Rdiv. rewrite <- Rmult_assoc, E. ring.
        -- rewrite (scatter_in OR _ 0) by auto. rewrite L2. unfold Rdiv. ring.
      * intros j Hj N. destruct (negb _); rewrite ?(scatter_out OR) by auto; apply L2.
    + assert (EZ : dden (length pos) z = vlist z) by (unfold dden; rewrite HZ; reflexivity). rewrite EZ in *.
      assert (LC : length (combine (vlist z) (vlist s)) = length pos) by (rewrite combine_length; lia).
      assert (NC : forall i, nth i (combine (vlist z) (vlist s)) (0, 0) = (nth i (vlist z) 0, nth i (vlist s) 0)) by (intros; apply combine_nth; lia).
      split.
      * intros i Hi.
        destruct (Req_bool alpha 1) eqn:E1; [|destruct (Req_bool alpha (-1)) eqn:E2]; rewrite (scatter_in OR _ (0,0)) by auto; rewrite NC, L2; cbn [fst snd].
        -- apply Req_bool_iff in E1. subst alpha. ring.
        -- apply Req_bool_iff in E2. subst alpha. ring.
        -- unfold Rdiv. ring.
      * intros j Hj N. destruct (Req_bool alpha 1); [|destruct (Req_bool alpha (-1))]; rewrite (scatter_out OR) by auto; apply L2.
Qed.

Lemma sinv_real nrows pos junk alpha s r z d x : positions nrows pos ->
  dok (length pos) s -> dok (length pos) r -> dok (length pos) z -> dok nrows d ->
  let x' := e_sinv OR pos junk alpha s r z d x in
  dok (length pos) x' /\
  (forall i, (i < length pos)%nat -> nth i (dden (length pos) x') 0 =
     (nth i (dden (length pos) r) 0 + alpha * nth i (dden (length pos) z) 0 * nth (nth i pos 0%nat) (dden nrows d) 0) / nth i (dden (length pos) s) 0).
Proof.
  intros P Hs Hr Hz Hd x'. subst x'. unfold e_sinv. set (m := length pos) in *. destruct (hom s || hom d) eqn:HH.
  - unfold m_sinv. fold m. cbn [R_ops t0 t1]. destruct (@trans_real nrows pos (junk m) alpha d 0 x P Hd) as (A & B); [intros E; lra|].
    fold m in A, B. set (t := e_trans OR pos (junk m) alpha d 0 x) in *.
    pose proof (@rep_self _ OR m _ A) as R0. pose proof (@rep_self _ OR m _ Hz) as Rz. pose proof (@rep_self _ OR m _ Hr) as Rr. pose proof (@rep_self _ OR m _ Hs) as Rs.
    pose proof (mul_rep OR (R_laws lg) m _ _ _ _ Rz R0) as R1. pose proof (axpy_rep lg m 1 _ _ _ _ Rr R1) as R2.
    pose proof (div_rep OR m _ _ _ _ Rs R2) as R3. split; [exact (proj1 R3)|].
    intros i Hi. pose proof (rep_nth OR R3 Hi) as E. cbn [R_ops t0 tdiv tmul] in E. rewrite E, (B i Hi). f_equal. ring.
  - apply orb_false_iff in HH. destruct HH as [HS HD]. destruct P as [ND RG].
    assert (LS : length (dden m s) = m) by (apply dden_length; auto).
    assert (LZ : length (dden m z) = m) by (apply dden_length; auto).
    assert (LR : length (dden m r) = m) by (apply dden_length; auto).
    assert (ES : dden m s = vlist s) by (unfold dden; rewrite HS; reflexivity). rewrite ES in *.
    assert (ED : dden nrows d = vlist d) by (unfold dden; rewrite HD; reflexivity). rewrite ED in *.
    cbn [R_ops t0 t1 tm1 teq tadd tsub tmul tdiv] in *.
    set (ds := map (fun p => nth p (vlist d) 0) pos).
    assert (LD : length ds = m) by (unfold ds; rewrite map_length; reflexivity).
    assert (VL : forall v : dvec R, hom v = false -> dok m v -> length (vlist v) = m).
    { intros v H1 H2. pose proof (dden_length m v H2) as H3. unfold dden in H3. rewrite H1 in H3. exact H3. }
    assert (ND' : forall i, (i < m)%nat -> nth i ds 0 = nth (nth i pos 0%nat) (vlist d) 0).
    { intros i Hi. unfold ds. rewrite (@nth_map' _ _ _ i 0%nat) by exact Hi. reflexivity. }
    match goal with |- dok _ (with_values _ ?l) /\ _ => assert (LL : length l = m); [|destruct (@with_ok _ m (d_values m (junk m) x) _ LL) as [W1 W2]; rewrite W2; split; [exact W1|]] end.
    { destruct (hom r) eqn:HR; destruct (hom z) eqn:HZ; try (pose proof (VL z HZ Hz)); try (pose proof (VL r HR Hr));
      [destruct (Req_bool _ _)| destruct (Req_bool alpha 1); [|destruct (Req_bool alpha (-1))] | | destruct (Req_bool alpha 1); [|destruct (Req_bool alpha (-1))]];
      rewrite ?map_length, ?map2_length, ?map3_length, ?combine_length; rewrite ?combine_length; lia. }
    intros i Hi. destruct (hom r) eqn:HR; destruct (hom z) eqn:HZ; rewrite <- (ND' i Hi).
    + rewrite (@hom_nthR _ _ _ HR Hi), (@hom_nthR _ _ _ HZ Hi).
      destruct (Req_bool (alpha * scal z) 0) eqn:E.
      * rewrite (@nth_map' _ _ _ i 0) by lia. apply Req_bool_iff in E. rewrite E. f_equal. ring.
      * rewrite (@nth_map2 _ _ _ _ i 0 0) by lia. reflexivity.
    + rewrite (@hom_nthR _ _ _ HR Hi). unfold dden in LZ |- *. rewrite HZ in *.
      destruct (Req_bool alpha 1) eqn:E1; [|destruct (Req_bool alpha (-1)) eqn:E2]; rewrite (@nth_map3 _ _ _ _ _ i 0 0 0) by lia.
      * apply Req_bool_iff in E1. subst alpha. f_equal. ring.
      * apply Req_bool_iff in E2. subst alpha. f_equal. ring.
      * reflexivity.
    + rewrite (@hom_nthR _ _ _ HZ Hi). unfold dden in LR |- *. rewrite HR in *.
      rewrite (@nth_map3 _ _ _ _ _ i 0 0 0) by lia. reflexivity.
    + unfold dden in LR, LZ |- *. rewrite HR, HZ in *.
      destruct (Req_bool alpha 1) eqn:E1; [|destruct (Req_bool alpha (-1)) eqn:E2]; rewrite (@nth_map3 _ _ _ _ _ i 0 (0,0) 0) by (rewrite ?combine_length; lia);
      rewrite combine_nth by lia; cbn [fst snd].
      * apply Req_bool_iff in E1. subst alpha. f_equal. ring.
      * apply Req_bool_iff in E2. subst alpha. f_equal. ring.
      * reflexivity.
Qed.
End Reals.

(** ** Doubles *)
Section Doubles.
Variable lg : num -> num.
Notation ON := (num_ops lg).
Local Open Scope R_scope.

Lemma nsub_opp x y : nsub x y = nadd x (nopp y).
Proof. unfold nsub, nadd, nopp. destruct x, y; reflexivity. Qed.

Definition mone : num := nofZ (-1).
Lemma mone_spec : nfin mone = true /\ key mone = -1.
Proof. destruct (nofZ_spec (-1)) as [A B]; [lia|]. split; auto. Qed.
Lemma eq_mone x : neqb x mone = true -> x = mone.
Proof.
  intros H. apply neqb_iff in H. destruct H as (Hx & Hn & E). destruct mone_spec as [MF MK].
  assert (F : nfin x = true). { apply key_strict_finite; [exact Hx|]. rewrite E, MK. pose proof (key_finite_lt none none_fin) as K. rewrite key_none in K. rewrite Rabs_pos_eq in K by lra. split; lra. }
  rewrite !key_finite in E by auto. apply B2R_inj; [| |exact E].
  - apply is_finite_strict_B2R. rewrite E, <- key_finite, MK by auto. lra.
  - apply is_finite_strict_B2R. rewrite <- key_finite, MK by auto. lra.
Qed.
Lemma nmul_mone x : nmul mone x = nopp x.
Proof.
  destruct mone_spec as [MF MK]. destruct (nfin x) eqn:F.
  - destruct (nmul_fin mone x MF F) as [N K].
    assert (FO : nfin (nopp x) = true) by (rewrite nfin_opp; exact F).
    rewrite MK in K. replace (-1 * key x) with (key (nopp x)) in K by (rewrite key_opp; ring).
    rewrite fl_key in K by (apply nfin_nnan; exact FO).
    assert (Fm : nfin (nmul mone x) = true).
    { apply key_strict_finite; [exact N|]. rewrite K.
      pose proof (key_finite_lt _ FO) as H. apply Rabs_lt_inv in H. exact H. }
    rewrite !key_finite in K by auto.
    apply B2R_Bsign_inj; auto.
    pose proof (Bmult_correct 53 1024 _ _ mode_NE mone x) as M. fold (nmul mone x) in M.
    match type of M with if ?b then _ else _ => destruct b end.
    + destruct M as (_ & _ & M). rewrite M by (apply nfin_nnan; exact Fm).
      assert (Bsign mone = true) as ->.
      { apply Bsign_neg. rewrite <- key_finite, MK by auto. lra. }
      unfold nopp. rewrite Bsign_Bopp by (apply nfin_nnan; exact F). destruct (Bsign x); reflexivity.
    + exfalso. cbn [binary_overflow overflow_to_inf] in M. apply B2SF_inf in M. rewrite M in Fm. discriminate Fm.
  - assert (H : forall o : num, key o = -1 -> nfin o = true -> nmul o x = nopp x); [|apply H; auto].
    intros o K Fo. destruct o as [s| | |so m e He]; simpl in K; try lra; try discriminate Fo.
    assert (so = true) as ->. { destruct so; [reflexivity|]. exfalso. unfold F2R in K. simpl in K.
      pose proof (bpow_gt_0 radix2 e). assert (0 < IZR (Z.pos m)) by (apply IZR_lt; lia). nra. }
    destruct x as [|s| |]; try discriminate F; unfold nmul, nopp, Bmult; simpl; [destruct s|]; reflexivity.
Qed.

Lemma same_sym p q : same p q -> same q p.
Proof. intros [E|E]; [left; auto|right]. apply neqb_iff in E. apply neqb_iff. intuition. Qed.
Lemma added_num h alpha u x : same (added ON h alpha u x) (nadd u (nmul alpha x)).
Proof.
  unfold added. cbn [num_ops teq t0 t1 tm1 tmul tadd tsub]. destruct h.
  - destruct (neqb (nmul alpha x) nzero) eqn:E; [|left; reflexivity]. apply same_sym.
    apply neqb_iff in E. destruct E as (A & B & C). rewrite key_nzero in C. apply nadd_zero; [|exact C].
    apply key_strict_finite; auto. rewrite C. pose proof big_pos. lra.
  - destruct (neqb alpha none) eqn:E1; [apply key1_none in E1; subst alpha; rewrite nmul_none; left; reflexivity|].
    fold mone. destruct (neqb alpha mone) eqn:E2; [apply eq_mone in E2; subst alpha; rewrite nmul_mone, nsub_opp; left; reflexivity|].
    left; reflexivity.
Qed.
End Doubles.

(** ** Positions *)
Lemma fill_length pos : forall i c, length (fill_compressed pos i c) = length c.
Proof. induction pos; simpl; intros; auto. rewrite IHpos. apply upd_length. Qed.
Lemma fill_out pos j : ~ In j pos -> forall i c d, nth j (fill_compressed pos i c) d = nth j c d.
Proof.
  induction pos as [|p pos IH]; intros N i c d; simpl; auto. rewrite IH by (intro; apply N; right; auto).
  apply nth_upd_other. intro; apply N; left; auto.
Qed.
Lemma fill_in pos : NoDup pos -> forall i c d k, k < length pos -> (forall p, In p pos -> p < length c) ->
  nth (nth k pos 0) (fill_compressed pos i c) d = (i + Z.of_nat k)%Z.
Proof.
  induction 1 as [|p pos N ND IH]; intros i c d k Hk R; simpl in *; try lia. destruct k as [|k].
  - rewrite fill_out by exact N. rewrite nth_upd_same by auto. lia.
  - rewrite IH by (auto; try lia; intros; rewrite upd_length; auto). lia.
Qed.

(** ** The matrix *)
Section Sums.
Local Open Scope R_scope.
Lemma sum_to_zero n f : (forall i, (i < n)%nat -> f i = 0) -> sum_to n f = 0.
Proof. induction n; simpl; intros; auto. rewrite IHn, H; auto. ring. Qed.
Lemma sum_to_one n f k : (k < n)%nat -> (forall i, (i < n)%nat -> i <> k -> f i = 0) -> sum_to n f = f k.
Proof.
  induction n; simpl; intros Hk H; try lia. destruct (Nat.eq_dec k n) as [->|N].
  - rewrite sum_to_zero; [ring|]. intros i Hi. apply H; lia.
  - rewrite IHn, (H n); auto; try lia. ring.
Qed.
Lemma sum_to_ext n f g : (forall i, (i < n)%nat -> f i = g i) -> sum_to n f = sum_to n g.
Proof. induction n; simpl; intros; auto. rewrite IHn, H; auto. Qed.
Lemma sum_to_plus n f g : sum_to n (fun i => f i + g i) = sum_to n f + sum_to n g.
Proof. induction n; simpl; try rewrite IHn; ring. Qed.
Lemma sum_to_scal n c f : sum_to n (fun i => c * f i) = c * sum_to n f.
Proof. induction n; simpl; try rewrite IHn; ring. Qed.
Lemma sum_to_swap n m f : sum_to n (fun i => sum_to m (fun j => f i j)) = sum_to m (fun j => sum_to n (fun i => f i j)).
Proof. induction n; simpl; [symmetry; apply sum_to_zero; auto|]. rewrite IHn, <- sum_to_plus. reflexivity. Qed.

Lemma times_in nrows pos x i : positions nrows pos -> (i < length pos)%nat -> times pos x (nth i pos 0%nat) = nth i x 0.
Proof.
  intros [ND _] Hi. unfold times. rewrite (@sum_to_one _ _ i Hi).
  - unfold entry. rewrite Nat.eqb_refl. ring.
  - intros k Hk N. unfold entry. destruct (Nat.eqb_spec (nth k pos 0%nat) (nth i pos 0%nat)) as [E|E]; [|ring].
    exfalso. apply N. apply (proj1 (NoDup_nth pos 0%nat) ND k i); auto.
Qed.
Lemma times_out pos x j : ~ In j pos -> times pos x j = 0.
Proof.
  intros N. unfold times. apply sum_to_zero. intros i Hi. unfold entry.
  destruct (Nat.eqb_spec (nth i pos 0%nat) j) as [E|E]; [|ring]. exfalso. apply N. rewrite <- E. apply nth_In. auto.
Qed.
Lemma trans_times_at nrows pos y i : positions nrows pos -> (i < length pos)%nat -> trans_times pos nrows y i = nth (nth i pos 0%nat) y 0.
Proof.
  intros [_ RG] Hi. unfold trans_times. rewrite (@sum_to_one _ _ (nth i pos 0%nat)).
  - unfold entry. rewrite Nat.eqb_refl. ring.
  - apply RG, nth_In; auto.
  - intros k Hk N. unfold entry. destruct (Nat.eqb_spec (nth i pos 0%nat) k); [congruence|ring].
Qed.
End Sums.
