(** Invariant of the evaluation state machine. *)
From Coq Require Import List Bool Arith ZArith Lia.
From Verif Require Import VecModel VecProofs ExpModel ExpProofs AdModel AdMaps AdEvalModel AdEvalSpec.
Import ListNotations.

Lemma list_ext {A} (d : A) l l' : length l = length l' -> (forall i, nth i l d = nth i l' d) -> l = l'.
Proof. intros L H. apply (@nth_ext _ l l' d d); auto. Qed.
Lemma upd_oob {A} i (v : A) l : length l <= i -> upd i v l = l.
Proof. revert i; induction l as [|b l IH]; intros [|i] H; cbn in *; auto; try lia. f_equal. apply IH. lia. Qed.

Section Put.
Context {T : Type} (O : nops T).
Lemma put_agree idx : forall vals (l l' : list T), length vals = length idx -> length l = length l' ->
  (forall i, ~ In i idx -> nth i l (t0 O) = nth i l' (t0 O)) -> put idx vals l = put idx vals l'.
Proof.
  induction idx as [|i idx IH]; intros [|v vals] l l' LV L H; cbn [put] in *; try discriminate.
  - apply (list_ext (t0 O)); auto.
  - apply IH; [now inversion LV|now rewrite !upd_length|].
    intros j Hj. destruct (Nat.eq_dec i j) as [->|NE].
    + destruct (Nat.lt_ge_cases j (length l)) as [K|K].
      * rewrite !nth_upd_same by lia. reflexivity.
      * rewrite !upd_oob by lia. rewrite !nth_overflow by lia. reflexivity.
    + rewrite !nth_upd_other by auto. apply H. intros [|]; auto.
Qed.
Lemma resort_x_twice a (f : list T) v w : resort_x O a true (resort_x O a true f v) w = resort_x O a true f w.
Proof.
  unfold resort_x. destruct (a_vars a) as [vs|]; [|reflexivity].
  apply map_ext_in. intros i Hi. apply in_seq in Hi. destruct (negb _) eqn:E; [reflexivity|].
  unfold at_. rewrite (@nth_map' _ _ _ i 0) by (rewrite seq_length; lia). rewrite seq_nth by lia. cbn [Nat.add]. rewrite E. reflexivity.
Qed.
Lemma put_indep idx i : forall vals (l l' : list T), length vals = length idx -> length l = length l' ->
  In i idx \/ nth i l (t0 O) = nth i l' (t0 O) -> nth i (put idx vals l) (t0 O) = nth i (put idx vals l') (t0 O).
Proof.
  induction idx as [|k idx IH]; intros [|v vals] l l' LV L H; cbn [put] in *; try discriminate.
  - destruct H as [[]|H]; auto.
  - apply IH; [now inversion LV|now rewrite !upd_length|].
    destruct (in_dec Nat.eq_dec i idx) as [I|I]; [left; auto|right].
    destruct (Nat.eq_dec k i) as [->|NE].
    + destruct (Nat.lt_ge_cases i (length l)) as [K|K].
      * rewrite !nth_upd_same by lia. reflexivity.
      * rewrite !nth_overflow by (rewrite upd_length; lia). reflexivity.
    + rewrite !nth_upd_other by auto. destruct H as [[H|H]|H]; auto; contradiction.
Qed.
Lemma resort_g_twice a rhs (f : list T) c d c' d' :
  resort_g O a false rhs c' d' (length (a_d a)) (resort_g O a false rhs c d (length (a_d a)) f) =
  resort_g O a false rhs c' d' (length (a_d a)) f.
Proof.
  unfold resort_g. rewrite firstn_all. cbn zeta.
  apply put_agree; [now rewrite map_length, seq_length|now rewrite !put_length|].
  intros i Hi. apply put_indep; [now rewrite map_length, seq_length|now rewrite !put_length|].
  destruct (in_dec Nat.eq_dec i (a_c a)) as [J|J]; [left; auto|right].
  rewrite !put_out by auto. reflexivity.
Qed.
End Put.

(** a call at a perturbed point *)
Definition probe {T} (c : call T) : Prop := match c with CallF _ true | CallG _ true => True | _ => False end.

Section Inv.
Context {T : Type} (O : nops T) (U : user T) (a : adapter) (rhs : list T).
Variables (fd_grad fd_jac : bool) (pert : T) (fxl fxu : list T) (jtrip : list (nat * nat)).
Variables (X YC YD : Z -> xvec (T:=T)) (asum_c asum_d : Z -> T) (x0 lam0 g0 j0 : list T).
Notation stp := (step O U a rhs fd_grad fd_jac pert fxl fxu jtrip X YC YD asum_c asum_d).
Notation runs := (run O U a rhs fd_grad fd_jac pert fxl fxu jtrip X YC YD asum_c asum_d).
Notation int_g := (internal_g U).
Notation int_jac := (internal_jac O U a fd_jac pert fxl fxu jtrip).
Notation jloop := (fd_jac_loop O U pert fxl fxu jtrip).
Notation gloop := (fd_grad_loop O U a pert fxl fxu).
Notation updx := (update_x O a X).
Notation updl := (update_lam O a rhs YC YD).
(** the user's point belonging to the vector with tag t, the user's multipliers *)
Definition expand (t : Z) : list T := resort_x O a true x0 (X t).
Definition multipliers (c d : Z) : list T := resort_g O a false rhs (YC c) (YD d) (length (a_d a)) lam0.
Definition fd_point (x : list T) (i : nat) : list T := upd i (snd (fd_step O pert fxu x i)) x.
(** all evaluations needed for a finite-difference Jacobian at x succeed *)
Definition fd_defined (x : list T) : Prop :=
  fst (u_g U x) = true /\ forall i, i < a_n a -> fd_free O fxl fxu i = true -> fst (u_g U (fd_point x i)) = true.
(** entry (r, c) of it *)
Definition fd_entry (x : list T) (r c : nat) : T :=
  tdiv O (tsub O (nth r (snd (u_g U (fd_point x c))) (t0 O)) (nth r (snd (u_g U x)) (t0 O))) (fst (fd_step O pert fxu x c)).
Definition fd_matrix (x : list T) (lim : nat) (j : list T) : Prop :=
  forall k r c, nth_error jtrip k = Some (r, c) -> c < lim -> fd_free O fxl fxu c = true -> nth k j (t0 O) = fd_entry x r c.

Record inv (s : st (T:=T)) : Prop := INV {
  i_x : forall v, resort_x O a true (full_x s) v = resort_x O a true x0 v;
  i_lam : forall c d, resort_g O a false rhs c d (length (a_d a)) (full_lam s) = resort_g O a false rhs c d (length (a_d a)) lam0;
  i_tx : tx s <> 0%Z -> full_x s = expand (tx s);
  i_ty : tyc s <> 0%Z -> full_lam s = multipliers (tyc s) (tyd s);
  i_tg : tg s <> 0%Z -> fst (u_g U (expand (tg s))) = true -> full_g s = snd (u_g U (expand (tg s)));
  i_jlen : fd_jac = true -> length (jac_g s) = length j0;
  i_tj : tj s <> 0%Z ->
     if fd_jac then length j0 = length jtrip -> fd_defined (expand (tj s)) -> fd_matrix (expand (tj s)) (a_n a) (jac_g s)
     else fst (u_jac U (expand (tj s))) = true /\ jac_g s = snd (u_jac U (expand (tj s))) }.

Lemma inv_init : inv (init x0 lam0 g0 j0).
Proof. constructor; cbn; auto; congruence. Qed.
Lemma inv_note c s : inv s -> inv (note c s).
Proof. intros []; constructor; auto. Qed.

Lemma updx_spec t s : inv s -> t <> 0%Z -> let s' := fst (updx t s) in
  inv s' /\ tx s' = t /\ full_x s' = expand t /\ tg s' = tg s /\ tj s' = tj s /\ tyc s' = tyc s /\ tyd s' = tyd s /\ log s' = log s /\
  full_g s' = full_g s /\ jac_g s' = jac_g s /\ full_lam s' = full_lam s /\
  (snd (updx t s) = false -> t = tx s /\ full_x s' = full_x s) /\ (snd (updx t s) = true -> t <> tx s).
Proof.
  intros [] NZ. unfold update_x. destruct (Z.eqb_spec t (tx s)) as [->|N]; cbn [fst snd].
  - repeat split; auto; discriminate.
  - unfold expand. cbn [tx full_x tg tj tyc tyd log full_g jac_g full_lam]. rewrite i_x0.
    repeat split; auto; try discriminate; cbn [tx full_x tg tj tyc tyd log full_g jac_g full_lam]; auto.
    intros v. apply resort_x_twice.
Qed.
Lemma updl_spec c d s : inv s -> c <> 0%Z -> d <> 0%Z -> let s' := fst (updl c d s) in
  inv s' /\ tx s' = tx s /\ full_x s' = full_x s /\ full_lam s' = multipliers c d /\ tyc s' = c /\ tyd s' = d /\ tg s' = tg s /\ tj s' = tj s /\ log s' = log s /\
  (snd (updl c d s) = false -> c = tyc s /\ d = tyd s).
Proof.
  intros [] NC ND. unfold update_lam. destruct (Z.eqb_spec c (tyc s)) as [->|N]; cbn [andb].
  - destruct (Z.eqb_spec d (tyd s)) as [->|N]; cbn [fst snd].
    + repeat split; auto.
    + unfold multipliers, opts_dimd. cbn [tx full_x tg tj tyc tyd log full_g jac_g full_lam]. rewrite i_lam0.
      repeat split; auto; try discriminate; cbn [tx full_x tg tj tyc tyd log full_g jac_g full_lam]; auto.
      intros c' d'. apply resort_g_twice.
  - unfold multipliers, opts_dimd. cbn [fst snd tx full_x tg tj tyc tyd log full_g jac_g full_lam]. rewrite i_lam0.
    repeat split; auto; try discriminate; cbn [tx full_x tg tj tyc tyd log full_g jac_g full_lam]; auto.
    intros c' d'. apply resort_g_twice.
Qed.

(** the parts of the state evaluations leave alone *)
Definition same (s s' : st (T:=T)) : Prop :=
  full_x s' = full_x s /\ full_lam s' = full_lam s /\ tx s' = tx s /\ tyc s' = tyc s /\ tyd s' = tyd s.

Lemma int_g_spec new s : inv s -> tx s <> 0%Z -> let s' := fst (int_g new s) in
  inv s' /\ same s s' /\ tg s' = tx s /\ jac_g s' = jac_g s /\ (tj s' = tj s \/ tj s' = 0%Z) /\
  (fst (u_g U (full_x s)) = true -> snd (int_g new s) = true /\ full_g s' = snd (u_g U (full_x s)) /\ tj s' = tj s) /\
  (tg s <> tx s -> snd (int_g new s) = fst (u_g U (full_x s))) /\
  (log s' = log s /\ tg s = tx s \/ log s' = CallG (full_x s) new :: log s /\ tg s <> tx s).
Proof.
  intros IV NZ. destruct (IV). unfold internal_g. destruct (Z.eqb_spec (tg s) (tx s)) as [E|E]; cbn [fst snd].
  - assert (E' : expand (tg s) = full_x s) by (rewrite E; symmetry; auto).
    split; [auto|]. split; [unfold same; auto|]. split; [auto|]. split; [auto|]. split; [auto|].
    split; [|split; [congruence|left; auto]]. intros D. split; [auto|]. split; [|auto]. rewrite <- E' in D |- *. apply i_tg0; auto; congruence.
  - rewrite (i_tx0 NZ). destruct (u_g U (expand (tx s))) as [[|] g] eqn:EG; cbn [fst snd].
    + split; [constructor; cbn; auto; rewrite EG; auto|]. unfold same; cbn. repeat split; auto.
    + split; [constructor; cbn; auto; try congruence; rewrite EG; discriminate|]. unfold same; cbn. repeat split; auto; discriminate.
Qed.

(** ** finite-difference Jacobian *)
Lemma in_cols i r k : In (r, k) (fd_cols jtrip i) <-> nth_error jtrip k = Some (r, i).
Proof.
  unfold fd_cols. rewrite in_map_iff. split.
  - intros (((r' & c) & k') & E & H). cbn [fst snd] in E. injection E as -> ->. apply filter_In in H. destruct H as [H E]. cbn [fst snd] in E.
    apply Nat.eqb_eq in E. subst c. apply In_nth_error in H. destruct H as (p & H).
    assert (G : forall (l : list (nat * nat)) b p q, nth_error (combine l (seq b (length l))) p = Some q -> nth_error l p = Some (fst q) /\ snd q = b + p).
    { induction l as [|e l IH]; intros b [|p'] q Hq; cbn in Hq; try discriminate.
      - injection Hq as <-. cbn. split; auto; lia.
      - apply IH in Hq. destruct Hq as [H1 H2]. cbn. split; auto; lia. }
    apply G in H. cbn [fst snd] in H. destruct H as [H1 H2]. replace k with p by lia. auto.
  - intros H. exists ((r, i), k). split; [reflexivity|]. apply filter_In. split; [|cbn; apply Nat.eqb_refl].
    assert (G : forall (l : list (nat * nat)) b p e, nth_error l p = Some e -> In (e, b + p) (combine l (seq b (length l)))).
    { induction l as [|e l IH]; intros b [|p'] q Hq; cbn in *; try discriminate.
      - injection Hq as ->. left. f_equal; lia.
      - right. replace (b + S p') with (S b + p') by lia. apply IH; auto. }
    apply (G jtrip 0 k (r, i)); auto.
Qed.
Lemma fold_upd_length (F : nat * nat -> T) es : forall j, length (fold_left (fun j e => upd (snd e) (F e) j) es j) = length j.
Proof. induction es as [|e es IH]; intros j; cbn; auto. rewrite IH, upd_length. reflexivity. Qed.
Lemma fold_upd_out (F : nat * nat -> T) es k : forall j, (forall r, ~ In (r, k) es) -> nth k (fold_left (fun j e => upd (snd e) (F e) j) es j) (t0 O) = nth k j (t0 O).
Proof.
  induction es as [|[r p] es IH]; intros j N; cbn; auto. rewrite IH.
  - apply nth_upd_other. intros ->. apply (N r); left; auto.
  - intros q H. apply (N q). right; auto.
Qed.
Lemma fold_upd_in (F : nat * nat -> T) es k r : forall j, In (r, k) es -> (forall r', In (r', k) es -> r' = r) -> k < length j ->
  nth k (fold_left (fun j e => upd (snd e) (F e) j) es j) (t0 O) = F (r, k).
Proof.
  induction es as [|[q p] es IH]; intros j I UQ L; [destruct I|]. cbn [fold_left].
  destruct (in_dec Nat.eq_dec k (map snd es)) as [K|K].
  - apply IH; [|intros r' H; apply UQ; right; auto|rewrite upd_length; auto].
    apply in_map_iff in K. destruct K as ((r' & k') & E & K). cbn in E. subst k'. rewrite <- (UQ r') by (right; auto). auto.
  - rewrite fold_upd_out.
    + destruct I as [E|I]; [injection E as -> ->; cbn [snd]; apply nth_upd_same; auto|exfalso; apply K; apply in_map_iff; exists (r, k); auto].
    + intros r' H. apply K. apply in_map_iff. exists (r', k). auto.
Qed.
Lemma jloop_frame : forall k i s, let s' := fst (jloop k i s) in same s s' /\ full_g s' = full_g s /\ tg s' = tg s /\ tj s' = tj s /\ length (jac_g s') = length (jac_g s) /\
  (exists l, log s' = l ++ log s /\ Forall probe l).
Proof.
  unfold same. induction k as [|k IH]; intros i s; cbn [fd_jac_loop fst]; [repeat split; auto; exists []; split; auto|].
  destruct (fd_free O fxl fxu i); [|apply IH].
  destruct (fd_step O pert fxu (full_x s) i) as [d p] eqn:E. set (xp := upd i p (full_x s)).
  destruct (fst (u_g U xp)).
  - specialize (IH (S i) (set_jac (fold_left (fun j e => upd (snd e) (tdiv O (tsub O (at_ O (snd (u_g U xp)) (fst e)) (at_ O (full_g (note (CallG xp true) s)) (fst e))) d) j) (fd_cols jtrip i) (jac_g (note (CallG xp true) s))) (note (CallG xp true) s))).
    cbn zeta in *. destruct IH as ((H1 & H2 & H3 & H4 & H5) & H6 & H7 & H8 & H9 & l & H10 & H11).
    rewrite H1, H2, H3, H4, H5, H6, H7, H8, H9, H10. cbn [set_jac note full_x full_lam tx tyc tyd full_g tg tj jac_g log].
    repeat split; auto; [apply fold_upd_length|].
    exists (l ++ [CallG xp true]). split; [now rewrite <- app_assoc|]. apply Forall_app. split; [auto|repeat constructor].
  - cbn [fst note full_x full_lam tx tyc tyd full_g tg tj jac_g log]. repeat split; auto. exists [CallG xp true]. split; [auto|repeat constructor].
Qed.
Lemma jloop_spec x : forall k i s, full_x s = x -> length (jac_g s) = length jtrip -> fd_defined x -> i + k = a_n a ->
  full_g s = snd (u_g U x) -> fd_matrix x i (jac_g s) ->
  snd (jloop k i s) = true /\ fd_matrix x (a_n a) (jac_g (fst (jloop k i s))).
Proof.
  induction k as [|k IH]; intros i s EX LJ [D1 D2] N EG M; cbn [fd_jac_loop fst snd].
  - split; auto. replace (a_n a) with i by lia. auto.
  - destruct (fd_free O fxl fxu i) eqn:F.
    + destruct (fd_step O pert fxu (full_x s) i) as [d p] eqn:E.
      assert (EP : upd i p (full_x s) = fd_point x i) by (unfold fd_point; rewrite <- EX, E; auto).
      rewrite EP. rewrite (D2 i) by (auto; lia).
      apply IH; auto; [|split; auto|lia|]; cbn [set_jac note full_x full_lam tx tyc tyd full_g tg tj jac_g log].
      * rewrite fold_upd_length. auto.
      * intros q r c Hq Hc Fc. destruct (Nat.eq_dec c i) as [->|NE].
        -- rewrite (fold_upd_in (fun e => tdiv O (tsub O (at_ O (snd (u_g U (fd_point x i))) (fst e)) (at_ O (full_g s) (fst e))) d) (fd_cols jtrip i) q r).
           ++ cbn [fst]. unfold fd_entry, at_. rewrite EG. f_equal. rewrite <- EX, E. reflexivity.
           ++ apply in_cols; auto.
           ++ intros r' H. apply in_cols in H. congruence.
           ++ rewrite LJ. apply nth_error_Some. congruence.
        -- rewrite (fold_upd_out (fun e => tdiv O (tsub O (at_ O (snd (u_g U (fd_point x i))) (fst e)) (at_ O (full_g s) (fst e))) d)).
           ++ apply (M q r c); auto. lia.
           ++ intros r' H. apply in_cols in H. congruence.
    + apply IH; auto; [split; auto|lia|]. intros q r c Hq Hc Fc. apply (M q r c); auto. assert (c <> i) by congruence. lia.
Qed.
(** the loop fails only if a user call fails *)
Lemma jloop_fail x : forall k i s, full_x s = x -> i + k <= a_n a -> (forall i', i' < a_n a -> fd_free O fxl fxu i' = true -> fst (u_g U (fd_point x i')) = true) ->
  snd (jloop k i s) = true.
Proof.
  induction k as [|k IH]; intros i s EX N D; cbn [fd_jac_loop fst snd]; auto.
  destruct (fd_free O fxl fxu i) eqn:F; [|apply IH; auto; lia].
  destruct (fd_step O pert fxu (full_x s) i) as [d p] eqn:E.
  assert (EP : upd i p (full_x s) = fd_point x i) by (unfold fd_point; rewrite <- EX, E; auto).
  rewrite EP, (D i) by (auto; lia). apply IH; auto. lia.
Qed.

Lemma inv_set_tj0 s : inv s -> inv (set_tj 0 s).
Proof. intros []. constructor; cbn; auto. congruence. Qed.

Lemma int_jac_spec new s : inv s -> tx s <> 0%Z -> let s' := fst (int_jac new s) in
  inv s' /\ same s s' /\
  (if fd_jac then length j0 = length jtrip -> fd_defined (full_x s) -> snd (int_jac new s) = true /\ fd_matrix (full_x s) (a_n a) (jac_g s')
   else snd (int_jac new s) = fst (u_jac U (full_x s)) /\ (fst (u_jac U (full_x s)) = true -> jac_g s' = snd (u_jac U (full_x s))) /\ tg s' = tg s) /\
  (tj s' = 0%Z \/ tj s' = tx s) /\
  (tg s' = tg s \/ tg s' = tx s) /\
  ((log s' = log s /\ tj s = tx s) \/ tj s <> tx s /\ exists l, log s' = l ++ log s /\ (fd_jac = false -> l = [CallJac (full_x s) new]) /\
     (fd_jac = true -> Forall probe l /\ tg s = tx s \/ exists l', l = l' ++ [CallG (full_x s) new] /\ Forall probe l')).
Proof.
  intros IV NZ. destruct (IV). unfold internal_jac. destruct (Z.eqb_spec (tj s) (tx s)) as [E|E]; cbn [fst snd].
  - assert (E' : expand (tj s) = full_x s) by (rewrite E; symmetry; auto). split; [auto|]. split; [unfold same; auto|].
    split; [|split; [auto|split; auto]]. destruct fd_jac.
    + intros L D. split; auto. rewrite <- E' in *. apply i_tj0; auto; congruence.
    + rewrite <- E'. destruct i_tj0 as [A B]; [congruence|]. repeat split; auto.
  - destruct fd_jac eqn:FD.
    + (* finite differences *)
      assert (IV1 : inv (set_tj 0 s)) by (apply inv_set_tj0; auto).
      pose proof (int_g_spec new _ IV1) as G. cbn [set_tj tx] in G. specialize (G NZ).
      (* internal_g does not look at tj *)
      assert (SW : forall t, int_g new (set_tj t s) = (let r := int_g new (set_tj 0 s) in (if snd r then set_tj t (fst r) else fst r, snd r))).
      { intros t. unfold internal_g. cbn [set_tj tg tx full_x]. destruct (_ =? _)%Z; [reflexivity|]. clear. destruct (fst (u_g U (full_x s))); reflexivity. }
      rewrite (SW (tx s)). destruct (int_g new (set_tj 0 s)) as [s1 ok] eqn:EG. cbn zeta in G. cbn [fst snd set_tj full_x] in G. cbn [fst snd].
      destruct G as (IV2 & (S1 & S2 & S3 & S4 & S5) & TG & JG & TJ & OKG & NEW & LG). cbn [set_tj full_x full_lam tx tyc tyd tg jac_g log] in *.
      assert (FRAME : same s s1) by (unfold same; cbn in *; auto).
      assert (TJ0 : tj s1 = 0%Z) by (destruct TJ; auto).
      destruct ok.
      * pose proof (jloop_frame (a_n a) 0 (set_tj (tx s) s1)) as FR. cbn zeta in FR.
        destruct FR as ((F1 & F2 & F3 & F4 & F5) & F6 & F7 & F8 & F9 & l & F10 & F11). cbn [set_tj full_x full_lam tx tyc tyd tg tj jac_g log full_g] in F1, F2, F3, F4, F5, F6, F7, F8, F9, F10.
        destruct (jloop (a_n a) 0 (set_tj (tx s) s1)) as [s2 ok2] eqn:EL. cbn [fst snd] in *.
        assert (MAT : length j0 = length jtrip -> fd_defined (full_x s) -> ok2 = true /\ fd_matrix (full_x s) (a_n a) (jac_g s2)).
        { intros L D. pose proof (jloop_spec (full_x s) (a_n a) 0 (set_tj (tx s) s1)) as J. rewrite EL in J. cbn [fst snd] in J. apply J; auto; cbn [set_tj full_x jac_g full_g].
          - rewrite JG. rewrite i_jlen0; auto.
          - apply OKG. apply D.
          - intros k r c _ H. lia. }
        assert (LOGS : exists l0, log s2 = l0 ++ log s /\ (true = false -> l0 = [CallJac (full_x s) new]) /\
           (true = true -> Forall probe l0 /\ tg s = tx s \/ exists l', l0 = l' ++ [CallG (full_x s) new] /\ Forall probe l')).
        { destruct LG as [[L1 L2]|[L1 L2]].
          - exists l. rewrite F10, L1. split; [auto|split; [discriminate|]]. left; auto.
          - exists (l ++ [CallG (full_x s) new]). rewrite F10, L1, <- app_assoc. split; [auto|split; [discriminate|]]. right. exists l. auto. }
        assert (INV2 : forall t, t = 0%Z \/ (t = tx s /\ ok2 = true) -> inv (set_tj t s2)).
        { intros t Ht. destruct IV2. constructor; cbn [set_tj full_x full_lam tx tyc tyd tg tj jac_g full_g]; rewrite ?F1, ?F2, ?F3, ?F4, ?F5, ?F6, ?F7; auto.
          - intros _. rewrite F9. auto.
          - intros N0. rewrite FD. destruct Ht as [Ht|[Ht Hok]]; [congruence|]. subst t. rewrite <- i_tx0 by auto. intros L D. apply MAT; auto. }
        destruct ok2.
        -- cbn [fst snd]. assert (E2 : s2 = set_tj (tx s) s2) by (rewrite <- F8 at 1; destruct s2; reflexivity).
           split; [rewrite E2; apply INV2; auto|]. split; [unfold same; rewrite F1, F2, F3, F4, F5; auto|]. split; [auto|].
           split; [right; auto|]. split; [right; rewrite F7; auto|]. right. split; [exact E|exact LOGS].
        -- cbn [fst snd]. split; [apply INV2; auto|]. split; [unfold same; cbn; rewrite F1, F2, F3, F4, F5; auto|].
           split; [intros L D; destruct (MAT L D); discriminate|]. split; [left; auto|]. split; [right; cbn; rewrite F7; auto|]. right. split; [exact E|exact LOGS].
      * cbn [fst snd]. split; [apply inv_set_tj0; auto|]. split; [unfold same in *; cbn; auto|].
        split; [intros L D; destruct (OKG (proj1 D)); discriminate|]. split; [left; auto|]. split; [right; cbn; auto|]. right. split; auto.
        destruct LG as [[L1 L2]|[L1 L2]].
        -- exists []. cbn. split; auto. split; [discriminate|]. left. auto.
        -- exists [CallG (full_x s) new]. cbn. rewrite L1. split; auto. split; [discriminate|]. right. exists []. auto.
    + cbn [set_tj full_x]. rewrite (i_tx0 NZ). destruct (u_jac U (expand (tx s))) as [[|] j] eqn:EJ; cbn [fst snd].
      * split; [constructor; cbn; auto; rewrite ?FD; auto; rewrite ?EJ; auto; congruence|]. split; [unfold same; cbn; auto|]. cbn. repeat split; auto.
        right. split; auto. exists [CallJac (expand (tx s)) new]. repeat split; auto. discriminate.
      * split; [constructor; cbn; auto; rewrite ?FD; auto; congruence|]. split; [unfold same; cbn; auto|]. cbn. repeat split; auto; try discriminate.
        right. split; auto. exists [CallJac (expand (tx s)) new]. repeat split; auto. discriminate.
Qed.
End Inv.
