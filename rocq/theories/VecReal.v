(** Exact arithmetic: all operations and reductions. Doubles: the laws used. *)
From Coq Require Import List Bool Arith ZArith Reals Lia Lra.
From Flocq Require Import Core BinarySingleNaN.
From Verif Require Import Num VecModel VecSpec VecProofs VecLift.
Import ListNotations.
Local Open Scope R_scope.

Lemma R_laws lg : laws (R_ops lg).
Proof.
  split; simpl; intros.
  - ring.
  - ring.
  - unfold Req_bool in *. destruct (Rcompare_spec x 1); congruence.
  - apply Req_bool_false. lra.
  - apply Rlt_bool_false. lra.
Qed.

Lemma nmul_comm x y : nmul x y = nmul y x.
Proof.
  unfold nmul, Bmult. destruct x as [| | |sx mx ex Hx], y as [| | |sy my ey Hy]; simpl; try (rewrite xorb_comm; reflexivity); try reflexivity.
  apply B2SF_inj. rewrite !B2SF_SF2B. rewrite xorb_comm, Pos.mul_comm, Z.add_comm. reflexivity.
Qed.
Lemma key1_none x : neqb x none = true -> x = none.
Proof.
  intros H. apply neqb_iff in H. destruct H as (Hx & Hn & E).
  assert (F : nfin x = true). { apply key_strict_finite; [exact Hx|]. rewrite E, key_none. pose proof (key_finite_lt none none_fin) as K. rewrite key_none in K. rewrite Rabs_pos_eq in K by lra. split; lra. }
  rewrite !key_finite in E by (auto using none_fin). apply B2R_inj; [| |exact E].
  - apply is_finite_strict_B2R. rewrite E, <- key_finite, key_none by apply none_fin. lra.
  - apply is_finite_strict_B2R. rewrite <- key_finite, key_none by apply none_fin. lra.
Qed.
Lemma nmul_none x : nmul none x = x.
Proof.
  destruct (nfin x) eqn:F.
  - destruct (nmul_fin none x none_fin F) as [N K].
    rewrite key_none, Rmult_1_l in K.
    assert (Fm : nfin (nmul none x) = true).
    { apply key_strict_finite; [exact N|]. rewrite K, fl_key by (apply nfin_nnan; exact F). 
      pose proof (key_finite_lt x F) as H. apply Rabs_lt_inv in H. exact H. }
    rewrite fl_key in K by (apply nfin_nnan; exact F). rewrite !key_finite in K by auto.
    apply B2R_Bsign_inj; auto.
    pose proof (Bmult_correct 53 1024 _ _ mode_NE none x) as M. fold (nmul none x) in M.
    match type of M with if ?b then _ else _ => destruct b end.
    + destruct M as (_ & _ & M). rewrite M by (apply nfin_nnan; exact Fm).
      assert (Bsign none = false) as ->.
      { apply Bsign_pos. rewrite <- key_finite, key_none by apply none_fin. lra. }
      destruct (Bsign x); reflexivity.
    + exfalso. cbn [binary_overflow overflow_to_inf] in M. apply B2SF_inf in M. rewrite M in Fm. discriminate Fm.
  - assert (H : forall o : num, key o = 1 -> nfin o = true -> nmul o x = x); [|apply H; [apply key_none|apply none_fin]].
    intros o K Fo. destruct o as [s| | |so m e He]; simpl in K; try lra; try discriminate Fo.
    assert (so = false) as ->. { destruct so; [|reflexivity]. exfalso. unfold F2R in K. simpl in K.
      pose proof (bpow_gt_0 radix2 e). assert (IZR (Z.neg m) < 0) by (apply IZR_lt; lia). nra. }
    destruct x as [|s| |]; try discriminate F; unfold nmul, Bmult; simpl; [destruct s|]; reflexivity.
Qed.

Lemma num_laws lg : laws (num_ops lg).
Proof.
  split; cbn [num_ops tmul t1 t0 teq tlt].
  - apply nmul_comm.
  - apply nmul_none.
  - apply key1_none.
  - destruct (neqb none nzero) eqn:E; [|reflexivity]. apply neqb_iff in E. destruct E as (_ & _ & E).
    rewrite key_none, key_nzero in E. lra.
  - intros x. destruct (nlt x x) eqn:E; [|reflexivity]. apply nlt_iff in E. lra.
Qed.

Section Reals.
Variable lg : R -> R.
Notation OR := (R_ops lg).

Ltac two H := apply drep_cases in H; destruct H as [(? & ? & -> & ? & H) | (? & ->)]; [pose proof (const_in _ _ _ H)|].
Ltac ops := cbn [R_ops t0 t1 tm1 tadd tsub tmul tdiv topp tabs tsqrt tlog tlt teq tnat thuge] in *.
Ltac hyps := repeat match goal with H : (forall i, In i _ -> _ i = _), K : In _ _ |- _ => rewrite (H _ K); clear H end.
Ltac fin := first [apply drep_hom | apply drep_arr]; auto; intros; hyps; auto;
  try (match goal with H : Some _ = Some _ |- _ => injection H as <-; apply map_seq_length end).

Lemma axpy_rep n a ex ev x v : drep n ex x -> drep n ev v -> drep n (fun i => ev i + a * ex i) (d_axpy OR n a x v).
Proof.
  intros Hx Hv. unfold d_axpy. destruct n as [|n]; [apply drep_0; apply Hv|]; cbn [Nat.eqb].
  two Hx; two Hv; unfold vlist, blas_axpy; cbn [hom scal vals]; ops; cbv iota; lists; try solve [fin].
  - destruct (Req_bool_spec x0 0); cbn [negb]; cbv iota; [fin; subst; ring|].
    destruct (Req_bool_spec a 0); fin; subst; ring.
  - destruct (Req_bool_spec a 0); fin; subst; ring.
Qed.
Lemma addtwo_default_rep n a b c e1 e2 ev v1 v2 v : drep n e1 v1 -> drep n e2 v2 -> (c <> 0 -> drep n ev v) -> 
  (exists e, drep n e v) ->
  drep n (fun i => a * e1 i + b * e2 i + c * ev i) (d_addtwo_default OR n a false v1 b false v2 c v).
Proof.
  intros H1 H2 Hv [e0 H0]. unfold d_addtwo_default, deref. ops.
  destruct (Req_bool_spec c 0).
  - destruct (Req_bool_spec a 1).
    + destruct (Req_bool_spec b 0); cbn [negb]; cbv iota.
      * eapply drep_ext; [|eapply copy_rep; eauto]. intros; cbv beta; subst; ring.
      * eapply drep_ext; [|eapply axpy_rep; [eauto|eapply copy_rep; eauto]]. intros; cbv beta; subst; ring.
    + destruct (Req_bool_spec a 0).
      * destruct (Req_bool_spec b 0); cbn [negb]; cbv iota.
        -- eapply drep_ext; [|apply set_rep]. intros; cbv beta; subst; ring.
        -- destruct (Req_bool_spec b 1); cbn [negb]; cbv iota.
           ++ eapply drep_ext; [|eapply copy_rep; eauto]. intros; cbv beta; subst; ring.
           ++ eapply drep_ext; [|eapply (scal_rep OR (R_laws lg)); eapply copy_rep; eauto]. intros; cbv beta; ops; subst; ring.
      * destruct (Req_bool_spec b 1).
        -- eapply drep_ext; [|eapply axpy_rep; [eauto|eapply copy_rep; eauto]]. intros; cbv beta; subst; ring.
        -- destruct (Req_bool_spec b 0).
           ++ eapply drep_ext; [|eapply (scal_rep OR (R_laws lg)); eapply copy_rep; eauto]. intros; cbv beta; ops; subst; ring.
           ++ eapply drep_ext; [|eapply axpy_rep; [eauto|eapply (scal_rep OR (R_laws lg)); eapply copy_rep; eauto]]. intros; cbv beta; ops; subst; ring.
  - specialize (Hv H). clear e0 H0.
    assert (K : drep n (fun i => c * ev i) (if negb (Req_bool c 1) then d_scal OR c v else v)).
    { destruct (Req_bool_spec c 1); cbn [negb]; cbv iota.
      - eapply drep_ext; [|exact Hv]. intros; cbv beta; subst; ring.
      - eapply drep_ext; [|eapply (scal_rep OR (R_laws lg)); exact Hv]. intros; cbv beta; ops; ring. }
    revert K. generalize (if negb (Req_bool c 1) then d_scal OR c v else v). intros w K.
    assert (K2 : drep n (fun i => c * ev i + a * e1 i) (if negb (Req_bool a 0) then d_axpy OR n a v1 w else w)).
    { destruct (Req_bool_spec a 0); cbn [negb]; cbv iota.
      - eapply drep_ext; [|exact K]. intros; cbv beta; subst; ring.
      - eapply axpy_rep; eauto. }
    revert K2. generalize (if negb (Req_bool a 0) then d_axpy OR n a v1 w else w). intros u K2.
    destruct (Req_bool_spec b 0); cbn [negb]; cbv iota.
    + eapply drep_ext; [|exact K2]. intros; cbv beta; subst; ring.
    + eapply drep_ext; [|eapply axpy_rep; eauto]. intros; cbv beta; ring.
Qed.

(** the 64 cases; [e1] is only used if a<>0 and [e2] if b<>0 *)
Lemma addtwo_cases_eq n a b c e1 e2 ev v1 v2 y : ~ (a = 0 /\ b = 1 /\ c = 1) ->
  (a <> 0 -> v1 = map e1 (seq 0 n)) -> (b <> 0 -> v2 = map e2 (seq 0 n)) -> (c <> 0 -> y = map ev (seq 0 n)) ->
  addtwo_cases OR n a v1 b v2 c y = map (fun i => a * e1 i + b * e2 i + c * ev i) (seq 0 n).
Proof.
  intros Hbug H1 H2 Hy. unfold addtwo_cases, blas_axpy. ops.
  destruct (Req_bool_spec c 0), (Req_bool_spec c 1), (Req_bool_spec c (-1)),
    (Req_bool_spec a 1), (Req_bool_spec a (-1)), (Req_bool_spec a 0),
    (Req_bool_spec b 0), (Req_bool_spec b 1), (Req_bool_spec b (-1));
    cbv iota; try (exfalso; lra);
    try rewrite (Req_bool_false 1 0) by lra; try rewrite (Req_bool_false (-1) 0) by lra;
    try rewrite H1 by lra; try rewrite H2 by lra; try rewrite Hy by lra; cbv iota; lists;
    try (apply map_ext; intros; subst; ring).
  all: try (exfalso; apply Hbug; repeat split; assumption).
  all: try (exfalso; tauto).
Qed.

Lemma addtwo_rep n junk a b c e1 e2 ev v1 v2 v : ~ (a = 0 /\ b = 1 /\ c = 1) -> length junk = n ->
  drep n e1 v1 -> drep n e2 v2 -> drep n ev v ->
  drep n (fun i => a * e1 i + b * e2 i + c * ev i) (d_addtwo OR n junk a false v1 b false v2 c v).
Proof.
  intros Hbug J H1 H2 Hv. unfold d_addtwo. destruct n as [|n]; [apply drep_0; apply Hv|]. cbn [Nat.eqb]. ops.
  assert (Hal : length (allocated junk v) = S n).
  { unfold allocated. destruct Hv as [(_ & _ & Hl) _]. destruct (vals v) eqn:E; auto. }
  assert (Hw : c <> 0 -> drep (S n) ev (if Req_bool c 0 then DV (init v) false (scal v) (Some (allocated junk v)) else v)).
  { intros K. rewrite Req_bool_false by exact K. exact Hv. }
  assert (Hw2 : exists e, drep (S n) e (if Req_bool c 0 then DV (init v) false (scal v) (Some (allocated junk v)) else v)).
  { destruct (Req_bool c 0); [|eauto]. destruct Hv as [(Hi & _) _]. rewrite Hi. eexists.
    eapply drep_arr'. pose proof (list_fun 0 (allocated junk v)) as K. rewrite Hal in K. exact K. }
  destruct (((Req_bool c 0 || hom v) && (negb (Req_bool a 0) && hom v1) && (negb (Req_bool b 0) && hom v2))%bool) eqn:Ef.
  - apply andb_true_iff in Ef. destruct Ef as [Ef E2]. apply andb_true_iff in Ef. destruct Ef as [Ec E1].
    apply andb_true_iff in E1. destruct E1 as [_ E1]. apply andb_true_iff in E2. destruct E2 as [_ E2].
    assert (Hl : forall l, vals v = Some l -> length l = S n) by apply Hv.
    two H1; [|discriminate E1]. two H2; [|discriminate E2]. cbn [scal].
    apply drep_hom; [exact Hl|]. intros i Hi. hyps.
    destruct (Req_bool_spec c 0); cbn [negb]; [subst; ring|]. simpl in Ec.
    two Hv; [|discriminate Ec]. simpl. match goal with K : forall i, In i _ -> ev i = _ |- _ => rewrite (K _ Hi) end. ring.
  - clear Ef. revert Hw Hw2.
    generalize (if Req_bool c 0 then DV (init v) false (scal v) (Some (allocated junk v)) else v). intros w Hw Hw2.
    match goal with |- context [if ?b then _ else _] => destruct b eqn:Eb end.
    + apply addtwo_default_rep; auto.
    + unfold deref. apply orb_false_iff in Eb. destruct Eb as [Eb E2]. apply orb_false_iff in Eb. destruct Eb as [Ew E1].
      apply drep_arr'. apply addtwo_cases_eq; auto.
      * intros K. rewrite (Req_bool_false a 0 K) in E1. simpl in E1. two H1; [discriminate E1|reflexivity].
      * intros K. rewrite (Req_bool_false b 0 K) in E2. simpl in E2. two H2; [discriminate E2|reflexivity].
      * intros K. specialize (Hw K). two Hw; [discriminate Ew|reflexivity].
Qed.

(** the excluded case, all operands stored element by element *)
Lemma addtwo_bug n junk e1 e2 ev v1 v2 v : (0 < n)%nat -> length junk = n ->
  drep n e1 v1 -> drep n e2 v2 -> drep n ev v -> hom v2 = false -> hom v = false ->
  drep n (fun i => ev i + INR n * e2 i) (d_addtwo OR n junk 0 false v1 1 false v2 1 v).
Proof.
  intros Hn J H1 H2 Hv E2 Ev. unfold d_addtwo. destruct n as [|n]; [lia|]. cbn [Nat.eqb]. ops.
  rewrite (Req_bool_true 0 0), (Req_bool_false 1 0) by lra. rewrite E2, Ev. cbn [negb andb orb]. cbv iota. cbn [orb]. rewrite ?Ev. cbn [orb]. cbv iota.
  apply drep_arr'. unfold addtwo_cases, deref. ops.
  rewrite (Req_bool_false 1 0), (Req_bool_true 1 1), (Req_bool_false 0 1), (Req_bool_false 0 (-1)), (Req_bool_true 0 0) by lra. cbv iota.
  two H2; [discriminate E2|]. two Hv; [discriminate Ev|]. unfold vlist; cbn [vals].
  set (s := seq 0 (S n)). clearbody s.
  assert (H : forall k ev, repeat_axpy OR k 1 (map e2 s) (map ev s) = map (fun i => ev i + INR k * e2 i) s).
  { clear. induction k; intros ev; cbn [repeat_axpy].
    - apply map_ext. intros; simpl; ring.
    - unfold blas_axpy at 1. ops. rewrite Req_bool_false by lra. rewrite map2_map, IHk. apply map_ext. intros. rewrite S_INR. ring. }
  apply H.
Qed.

Definition pm1 (y : R) : Prop := y = -1 \/ y = 0 \/ y = 1.
Lemma sel_rep n ex ev x v : drep n ex x -> drep n ev v -> (forall i, In i (seq 0 n) -> pm1 (ev i)) ->
  drep n (fun i => select OR (ev i) (ex i)) (d_sel OR n x v).
Proof.
  intros Hx Hv Hp. unfold d_sel. destruct n as [|n]; [apply drep_0; apply Hv|]; cbn [Nat.eqb].
  assert (Hs : forall y q, pm1 y -> select OR y q = y * q).
  { intros y q [-> | [-> | ->]]; unfold select; ops.
    - rewrite Rlt_bool_false, Rlt_bool_true by lra. ring.
    - rewrite Rlt_bool_false by lra. ring.
    - rewrite Rlt_bool_true by lra. ring. }
  assert (Hs2 : forall y q, pm1 y -> select OR y q = sel OR y q).
  { intros y q [-> | [-> | ->]]; unfold select, sel; ops; auto.
    - rewrite Rlt_bool_false, Rlt_bool_true by lra. reflexivity.
    - rewrite (Rlt_bool_true 0 1) by lra. reflexivity. }
  assert (H0 : In 0%nat (seq 0 (S n))) by (left; reflexivity).
  apply drep_cases in Hx; destruct Hx as [(p & po & -> & Hpo & Hx) | (p & ->)]; [pose proof (const_in _ _ _ Hx) as Cx|];
  apply drep_cases in Hv; destruct Hv as [(q & qo & -> & Hqo & Hv) | (q & ->)]; try pose proof (const_in _ _ _ Hv) as Cv;
  unfold vlist; cbn [hom scal vals]; ops; cbv iota; lists.
  - assert (Hq : pm1 q) by (rewrite <- (Cv _ H0); apply Hp, H0).
    destruct (Req_bool_spec q 0) as [E|E]; apply drep_hom; auto; intros i Hi; rewrite (Cv _ Hi), (Cx _ Hi), Hs by auto; subst; ring.
  - destruct (Req_bool_spec p 1) as [E|E]; cbn [negb]; cbv iota; apply drep_arr; intros i Hi; rewrite (Cx _ Hi).
    + rewrite Hs by auto. subst. ring.
    + apply Hs2; auto.
  - assert (Hq : pm1 q) by (rewrite <- (Cv _ H0); apply Hp, H0).
    destruct (Req_bool_spec q 0) as [E|E].
    + apply drep_hom; auto. intros i Hi. rewrite (Cv _ Hi), Hs by auto. subst. ring.
    + apply drep_arr. intros i Hi. rewrite (Cv _ Hi), Hs by auto. reflexivity.
  - apply drep_arr. intros i Hi. apply Hs2; auto.
Qed.

(** restrictions of the exact-arithmetic theorem: no aliasing in AddTwoVectors and
    AddOneVector, not the defective case, selectors -1, 0, 1 *)
Definition safe (i : nat) (o : op R) (y : list R) : Prop :=
  match o with
  | OAddTwo a x b z c => x <> i /\ z <> i /\ ~ (a = 0 /\ b = 1 /\ c = 1)
  | OAddOne a x c => x <> i
  | OSel x => Forall pm1 y
  | _ => True
  end.

Context (junk : nat -> list R) (Hj : forall n, length (junk n) = n).
Lemma exec_real sp h i o : (forall j, vok (sp j) (h j)) -> legal sp i o -> safe i o (contents (h i)) ->
  vok (sp i) (exec OR junk h i o) /\ contents (exec OR junk h i o) = effect OR (fun j => contents (h j)) i o.
Proof.
  intros Hh Hl Hs. destruct (elementwise o) eqn:He; [exact (exec_elementwise OR (R_laws lg) junk Hj sp h i o Hh Hl He)|].
  pose proof (Hh i) as Hi. destruct o; try discriminate He; cbn [legal safe exec effect] in *.
  - pose proof (Hh x) as Hx. rewrite Hl in Hx. refine (lift2_ok _ _ _ (d2 OR _ _ _) _ _ _ Hx Hi (allT _)). intros. apply axpy_rep; auto.
  - pose proof (Hh x) as Hx. rewrite Hl in Hx. refine (lift2_ok _ _ _ _ _ _ _ Hx Hi Hs).
    intros n dx d Hdx Hd HP. destruct (dok_rep OR _ _ Hd) as [e Hee]. destruct (dok_rep OR _ _ Hdx) as [ex Hex].
    destruct (sel_rep _ _ _ _ _ Hex Hee) as [K1 K2].
    { destruct Hee as [_ Hee]. rewrite Hee in HP. rewrite Forall_map, Forall_forall in HP. exact HP. }
    split; [exact K1|]. destruct Hee as [_ Hee], Hex as [_ Hex]. rewrite K2, Hee, Hex. lists. reflexivity.
  - destruct Hl as [E1 E2]. pose proof (Hh x) as Hx. rewrite E1 in Hx. pose proof (Hh z) as Hz. rewrite E2 in Hz.
    destruct Hs as (N1 & N2 & N3). apply Nat.eqb_neq in N1, N2. rewrite N1, N2.
    refine (lift3_ok _ _ _ (d3 OR _ _ _) _ _ _ _ Hx Hz Hi (allT _)). intros. apply addtwo_rep; auto.
  - pose proof (Hh x) as Hx. rewrite Hl in Hx. apply Nat.eqb_neq in Hs. rewrite Hs.
    assert (K : dense3 (fun _ => True) (fun n v1 v2 => d_addtwo OR n (junk n) a false v1 (t0 OR) false v2 c) (fun y p q => a * p + 0 * q + c * y)).
    { apply (d3 OR). intros. apply addtwo_rep; auto. ops. lra. }
    destruct (lift3_ok _ _ _ K _ _ _ _ Hx Hx Hi (allT _)) as [K1 K2]. split; [exact K1|]. etransitivity; [exact K2|].
    pose proof (vok_length _ _ Hi) as L1. pose proof (vok_length _ _ Hx) as L2. rewrite <- L1 in L2. clear -L2.
    ops. revert L2. generalize (contents (h x)), (contents (h i)). induction l; intros [|]; simpl; intros; try lia; auto.
    f_equal; [ring|]. apply IHl. lia.
Qed.
End Reals.
