(** * CacheHist: statements about whole histories, proved from the step lemmas of CacheProofs. *)
From Coq Require Import List ZArith Bool Arith Lia.
From Verif Require Import Num CacheModel CacheSpec CacheProofs.
Import ListNotations.

Section P.
Variable T : Type.
Notation st := (st T).
Notation op := (op T).

Lemma run_app : forall h s h', run T s (h ++ h') = bind (run T s h) (fun s' => run T s' h').
Proof.
  induction h as [|o h IH]; intros s h'; [reflexivity|].
  cbn [app run]. destruct (step T s o) as [[s' v]| |]; cbn [bind]; [apply IH|reflexivity|reflexivity].
Qed.

(** Induction over histories from a state satisfying SInv. *)
Lemma run_ind (P : list op -> st -> Prop) s0 :
  SInv T s0 -> P [] s0 ->
  (forall h s op s', P h s -> SInv T s -> SInv T s' -> trans T s s' op -> fwd T s s' op -> lists T s s' op -> maxs T s s' op ->
     tags_step T s s' op -> P (h ++ [op]) s') ->
  forall h s, run T s0 h = Ok s -> SInv T s /\ P h s.
Proof.
  intros I0 P0 PS h. induction h as [|o h IH] using rev_ind; intros s R.
  - injection R as <-. split; assumption.
  - rewrite run_app in R. destruct (run T s0 h) as [s1| |]; [|discriminate|discriminate].
    destruct (IH s1 eq_refl) as (I1 & P1). cbn [bind run] in R.
    destruct (step_good T s1 o I1) as [B|(s2 & v & R2 & I2 & (Tr & FW) & L & M & TS)].
    { rewrite B in R. discriminate. }
    rewrite R2 in R. cbn [bind] in R. injection R as <-. split; [exact I2|]. eapply PS; eassumption.
Qed.

Lemma run_no_UB : forall h s, SInv T s -> run T s h <> UB.
Proof.
  induction h as [|o h IH]; intros s I; [discriminate|]. cbn [run].
  destruct (step_good T s o I) as [B|(s2 & v & R2 & I2 & _)].
  - rewrite B. discriminate.
  - rewrite R2. cbn [bind]. apply IH; exact I2.
Qed.
Lemma run_SInv h s s' : SInv T s -> run T s h = Ok s' -> SInv T s'.
Proof. intros I R. apply (run_ind (fun _ _ => True) s I Logic.I (fun _ _ _ _ _ _ _ _ _ _ _ _ => Logic.I) h s' R). Qed.

(** ** Tags *)
Lemma changes_app h h' : changes T (h ++ h') = (changes T h + changes T h')%Z.
Proof. unfold changes. rewrite filter_app, app_length. lia. Qed.
Lemma changes_nonneg h : (0 <= changes T h)%Z.
Proof. unfold changes. lia. Qed.

Definition TI (th : nat) (h : list op) (s : st) : Prop :=
  one_thread T th h -> (changes T h <= tag_mod - 1)%Z ->
  uniq T s th = ((changes T h + 1) mod tag_mod)%Z /\
  forall x t, tagof T s x = Some t -> exists pre o mid, h = pre ++ o :: mid /\ consumes_tag T o = true /\ modifies T o x /\
     t = (changes T pre + 1)%Z /\ forall o', In o' mid -> ~ modifies T o' x.

Lemma changes_one o : changes T [o] = if consumes_tag T o then 1%Z else 0%Z.
Proof. unfold changes. cbn [filter]. destruct (consumes_tag T o); reflexivity. Qed.

Lemma TI_step th h s o s' : TI th h s -> tags_step T s s' o -> TI th (h ++ [o]) s'.
Proof.
  intros H TS OT CH. rewrite changes_app, changes_one in *.
  destruct H as (HU & HT).
  { intros o' Ho'. apply OT. apply in_or_app; left; exact Ho'. }
  { destruct (consumes_tag T o); lia. }
  assert (Hth : in_thread T th o) by (apply OT; apply in_or_app; right; left; reflexivity).
  pose proof (changes_nonneg h) as NN.
  assert (Keep : forall x t, tagof T s x = Some t -> ~ modifies T o x ->
    exists pre o0 mid, h ++ [o] = pre ++ o0 :: mid /\ consumes_tag T o0 = true /\ modifies T o0 x /\
     t = (changes T pre + 1)%Z /\ forall o', In o' mid -> ~ modifies T o' x).
  { intros x t Ht Hm. destruct (HT x t Ht) as (pre & o0 & mid & -> & A & B & C & D).
    exists pre, o0, (mid ++ [o]). rewrite <- app_assoc. repeat split; auto.
    intros o' Ho'. apply in_app_or in Ho'. destruct Ho' as [Ho'|[<-|[]]]; [apply D; exact Ho'|exact Hm]. }
  assert (New : forall x, consumes_tag T o = true -> modifies T o x -> (changes T h + 1 <= tag_mod - 1)%Z ->
    exists pre o0 mid, h ++ [o] = pre ++ o0 :: mid /\ consumes_tag T o0 = true /\ modifies T o0 x /\
     uniq T s th = (changes T pre + 1)%Z /\ forall o', In o' mid -> ~ modifies T o' x).
  { intros x A B C. exists h, o, []. repeat split; auto. rewrite HU. apply Z.mod_small. lia. }
  assert (UN : forall u, u = ((uniq T s th + 1) mod tag_mod)%Z -> u = ((changes T h + 1 + 1) mod tag_mod)%Z).
  { intros u ->. rewrite HU. apply Z.add_mod_idemp_l. discriminate. }
  destruct o; cbn [consumes_tag] in CH; cbn [tags_step] in TS; cbn [in_thread] in Hth;
    try (destruct TS as (U & TE); rewrite U, HU, Z.add_0_r; split; [reflexivity|]; intros x t Ht; rewrite TE in Ht; apply Keep; [exact Ht|intros []]).
  - subst thread. destruct TS as (_ & U & TG). split; [rewrite U, upd_same; apply UN; reflexivity|]. intros x t Ht. rewrite TG in Ht.
    destruct (x =? sid) eqn:E.
    + apply Nat.eqb_eq in E; subst x. injection Ht as <-. apply New; [reflexivity|reflexivity|lia].
    + apply Keep; [exact Ht|]. apply Nat.eqb_neq in E. cbn; congruence.
  - subst thread. destruct TS as (_ & U & TG). split; [rewrite U, upd_same; apply UN; reflexivity|]. intros x t Ht. rewrite TG in Ht.
    destruct (x =? sid) eqn:E.
    + apply Nat.eqb_eq in E; subst x. injection Ht as <-. apply New; [reflexivity|reflexivity|lia].
    + apply Keep; [exact Ht|]. apply Nat.eqb_neq in E. cbn; congruence.
  - destruct TS as (_ & U & TG). split; [rewrite U, HU, Z.add_0_r; reflexivity|]. intros x t Ht. rewrite TG in Ht.
    destruct (x =? sid) eqn:E; [discriminate|]. apply Keep; [exact Ht|]. apply Nat.eqb_neq in E. cbn; congruence.
Qed.

Lemma TI_init th : TI th [] (init T).
Proof.
  intros _ _. split; [reflexivity|]. intros x t H. discriminate.
Qed.
Lemma run_TI th h s : run T (init T) h = Ok s -> TI th h s.
Proof.
  intros R. refine (proj2 (run_ind (TI th) (init T) (SInv_init T) (TI_init th) _ h s R)).
  intros h' s' o s'' H _ _ _ _ _ _ TS. eapply TI_step; eassumption.
Qed.

Lemma position_unique : forall (pre pre' : list op) o o' mid mid',
  pre ++ o :: mid = pre' ++ o' :: mid' -> consumes_tag T o = true -> consumes_tag T o' = true ->
  changes T pre = changes T pre' -> pre = pre' /\ o = o' /\ mid = mid'.
Proof.
  induction pre as [|a pre IH]; intros [|a' pre'] o o' mid mid' H Ho Ho' C.
  - injection H as -> ->. auto.
  - injection H as -> H. change (a' :: pre') with ([a'] ++ pre') in C. rewrite changes_app, changes_one, Ho in C.
    pose proof (changes_nonneg pre'). change (changes T []) with 0%Z in C. lia.
  - injection H as -> H. change (o' :: pre) with ([o'] ++ pre) in C. rewrite changes_app, changes_one, Ho' in C.
    pose proof (changes_nonneg pre). change (changes T []) with 0%Z in C. lia.
  - injection H as -> H. change (a' :: pre) with ([a'] ++ pre) in C. change (a' :: pre') with ([a'] ++ pre') in C.
    rewrite !changes_app in C. destruct (IH pre' o o' mid mid' H Ho Ho') as (-> & -> & ->); [lia|]. auto.
Qed.

Lemma modifies_fun o x y : modifies T o x -> modifies T o y -> x = y.
Proof. destruct o; cbn; congruence || contradiction. Qed.

Lemma tags_inj th h s : run T (init T) h = Ok s -> one_thread T th h -> (changes T h <= tag_mod - 1)%Z ->
  (forall x t, tagof T s x = Some t -> (1 <= t)%Z) /\
  forall x y t, tagof T s x = Some t -> tagof T s y = Some t -> x = y.
Proof.
  intros R OT CH. destruct (run_TI th h s R OT CH) as (_ & HT). split.
  - intros x t Ht. destruct (HT x t Ht) as (pre & o & mid & _ & _ & _ & -> & _). pose proof (changes_nonneg pre). lia.
  - intros x y t Hx Hy. destruct (HT x t Hx) as (pre & o & mid & E1 & A1 & B1 & C1 & _).
    destruct (HT y t Hy) as (pre' & o' & mid' & E2 & A2 & B2 & C2 & _).
    destruct (position_unique pre pre' o o' mid mid') as (_ & <- & _); [congruence|assumption|assumption|lia|].
    eapply modifies_fun; eassumption.
Qed.

Lemma gettag_inv s x s' t : step T s (OGetTag T x) = Ok (s', Tag T t) -> s' = s /\ tagof T s x = Some t.
Proof.
  cbn [step]. unfold tagof. destruct (subjs T s x) as [sb|]; [|discriminate]. intros H. injection H as <- <-. split; reflexivity.
Qed.

Theorem tag_identifies_state : forall th h1 h2 s1 s2 x y t1 t2 s1' s2',
  one_thread T th (h1 ++ h2) -> (changes T (h1 ++ h2) <= 2 ^ 32 - 1)%Z ->
  run T (init T) h1 = Ok s1 -> run T s1 h2 = Ok s2 ->
  step T s1 (OGetTag T x) = Ok (s1', Tag T t1) -> step T s2 (OGetTag T y) = Ok (s2', Tag T t2) ->
  (t1 = t2 <-> x = y /\ forall o, In o h2 -> ~ modifies T o x).
Proof.
  intros th h1 h2 s1 s2 x y t1 t2 s1' s2' OT CH R1 R2 G1 G2.
  apply gettag_inv in G1, G2. destruct G1 as (_ & G1), G2 as (_ & G2).
  assert (R12 : run T (init T) (h1 ++ h2) = Ok s2) by (rewrite run_app, R1; exact R2).
  destruct (run_TI th _ _ R12 OT CH) as (_ & HT2).
  destruct (run_TI th _ _ R1) as (_ & HT1).
  { intros o Ho. apply OT. apply in_or_app; left; exact Ho. }
  { rewrite changes_app in CH. pose proof (changes_nonneg h2). unfold tag_mod. lia. }
  destruct (HT1 x t1 G1) as (pre & o & mid & E1 & A1 & B1 & C1 & D1).
  destruct (HT2 y t2 G2) as (pre' & o' & mid' & E2 & A2 & B2 & C2 & D2).
  rewrite E1, <- app_assoc in E2. cbn [app] in E2. split.
  - intros <-. destruct (position_unique pre pre' o o' (mid ++ h2) mid' E2 A1 A2) as (_ & <- & <-); [lia|].
    assert (x = y) as <- by (eapply modifies_fun; eassumption). split; [reflexivity|].
    intros o' Ho'. apply D2. apply in_or_app; right; exact Ho'.
  - intros (<- & Hm).
    (* the two positions of the last modification coincide *)
    assert (W : forall (p p' : list op) q q' m m', p ++ q :: m = p' ++ q' :: m' -> modifies T q x -> modifies T q' x ->
       (forall z, In z m -> ~ modifies T z x) -> (forall z, In z m' -> ~ modifies T z x) -> p = p').
    { clear. induction p as [|a p IH]; intros [|a' p'] q q' m m' H Mq Mq' Hm Hm'.
      - reflexivity.
      - injection H as -> H. exfalso. apply (Hm q'); [rewrite H; apply in_or_app; right; left; reflexivity|exact Mq'].
      - injection H as -> H. exfalso. apply (Hm' q); [rewrite <- H; apply in_or_app; right; left; reflexivity|exact Mq].
      - injection H as -> H. f_equal. eapply IH; eassumption. }
    rewrite C1, C2. f_equal. f_equal. eapply (W pre pre' o o' (mid ++ h2) mid'); eauto.
    intros z Hz. apply in_app_or in Hz. destruct Hz as [Hz|Hz]; [apply D1|apply Hm]; exact Hz.
Qed.

(** ** Origin of entries *)
Definition origin (h : list op) (s : st) (c : nat) (d : dres T) : Prop :=
  exists pre mid deps, h = pre ++ CAdd T c (result T d) deps (dscal T d) :: mid /\
    (forall o, In o mid -> ~ outdates T o c deps) /\
    (forall x, In (Some x) deps -> In x (subjects T d)) /\ deps_alive T s deps = true /\ dtags T d = map (tagval T s) deps.
Definition GI (h : list op) (s : st) : Prop :=
  forall c o d, In o (elist T s c) -> obss T s o = Some d -> stale T d = false -> origin h s c d.

Lemma in_somes x deps : In (Some x) deps -> In x (somes deps).
Proof. intros H. unfold somes. apply in_flat_map. exists (Some x). split; [exact H|left; reflexivity]. Qed.

Lemma alive_tagof s x : dep_alive T s (Some x) = true <-> tagof T s x <> None.
Proof. unfold dep_alive, tagof. destruct (subjs T s x); cbn; split; congruence. Qed.

Lemma deps_same s s' deps : (forall x, In (Some x) deps -> tagof T s' x = tagof T s x) ->
  deps_alive T s' deps = deps_alive T s deps /\ map (tagval T s') deps = map (tagval T s) deps.
Proof.
  intros H. split.
  - unfold deps_alive. induction deps as [|[x|] deps IH]; [reflexivity| |]; cbn [forallb].
    + rewrite IH by (intros y Hy; apply H; right; exact Hy). f_equal.
      assert (A : dep_alive T s' (Some x) = true <-> dep_alive T s (Some x) = true).
      { rewrite !alive_tagof, (H x) by (left; reflexivity). reflexivity. }
      destruct (dep_alive T s' (Some x)), (dep_alive T s (Some x)); intuition.
    + rewrite IH by (intros y Hy; apply H; right; exact Hy). reflexivity.
  - apply map_ext_in. intros [x|] Hx; [|reflexivity]. cbn [tagval]. rewrite H by exact Hx. reflexivity.
Qed.

Lemma origin_step h s s' o c d d' : origin h s c d -> dsame T d d' ->
  (forall x, In x (subjects T d) -> In x (subjects T d') /\ tagof T s' x = tagof T s x) ->
  ~ disturbs T o c (subjects T d) -> origin (h ++ [o]) s' c d'.
Proof.
  intros (pre & mid & deps & E & Hm & Hs & AL & DT) (S1 & S2 & S3) Hsub Hd.
  destruct (deps_same s s' deps) as (Q1 & Q2); [intros x Hx; apply Hsub; apply Hs; exact Hx|].
  exists pre, (mid ++ [o]), deps. rewrite S1, S2, S3, E, <- app_assoc, Q1, Q2. repeat split; auto.
  - intros o' Ho'. apply in_app_or in Ho'. destruct Ho' as [Ho'|[<-|[]]]; [apply Hm; exact Ho'|].
    intros Ht. apply Hd. destruct o; cbn in *; auto.
  - intros x Hx. apply Hsub. apply Hs; exact Hx.
Qed.

Lemma GI_step h s s' o : GI h s -> trans T s s' o -> GI (h ++ [o]) s'.
Proof.
  intros G Tr c o' d' Hin E St. destruct (Tr c o' d' Hin E St) as [(Hin0 & d & E0 & St0 & Sm & Hsub & Hd)|(deps & -> & AL & DT & SB)].
  - eapply origin_step; try eassumption. eapply G; eassumption.
  - exists h, [], deps. repeat split; auto.
    intros x Hx. rewrite SB. apply in_somes; exact Hx.
Qed.
Lemma run_GI h s : run T (init T) h = Ok s -> GI h s.
Proof.
  intros R. refine (proj2 (run_ind GI (init T) (SInv_init T) _ _ h s R)).
  - intros c o d [].
  - intros h' s' o s'' H _ _ Tr _ _ _ _. eapply GI_step; eassumption.
Qed.

(** What a lookup returns. *)
Lemma get_spec s c deps scal s' r : SInv T s -> step T s (CGet T c deps scal) = Ok (s', Got T r) ->
  deps_alive T s deps = true /\
  match r with
  | None => forall o d, In o (elist T s c) -> obss T s o = Some d -> stale T d = false -> matches T s d deps scal = false
  | Some v => exists l1 l2 o d, fresh_filter T s (elist T s c) = l1 ++ o :: l2 /\ obss T s o = Some d /\ stale T d = false /\
      matches T s d deps scal = true /\ result T d = v /\
      forall o' d', In o' l1 -> obss T s o' = Some d' -> matches T s d' deps scal = false
  end.
Proof.
  intros I H. cbn [step] in H. destruct (deps_alive T s deps) eqn:AL; [|discriminate]. split; [reflexivity|].
  unfold cache_get in H. destruct (caches T s c) as [ca|] eqn:E; [|discriminate].
  destruct (entries ca) as [l|] eqn:El.
  - destruct (cleanup_cache T s c ca l I E El) as (s1 & R & D & EL & I2 & O2). rewrite R in H. cbn [bind] in H.
    set (s2 := set_cache T s1 c _) in *.
    assert (TE : tags_eq T s s2) by (intros x; apply D).
    assert (AL2 : deps_alive T s2 deps = true) by (rewrite (deps_alive_frame T s s2); auto).
    assert (MM : forall d, matches T s2 d deps scal = matches T s d deps scal).
    { intros d. assert (HM : matches T s2 d deps scal = true <-> matches T s d deps scal = true).
      { rewrite !matches_spec by assumption.
        replace (map (tagval T s2) deps) with (map (tagval T s) deps); [reflexivity|].
        apply map_ext. intros [x|]; [|reflexivity]. cbn [tagval]. rewrite TE. reflexivity. }
      destruct (matches T s2 d deps scal), (matches T s d deps scal); intuition. }
    destruct (find_identical_ok T s2 deps scal AL2 (fresh_filter T s l)) as (f & Rf & Hf).
    { intros o Ho. unfold alive. rewrite O2 by exact Ho. apply fresh_filter_In in Ho. apply (iAlive T s I c). rewrite EL. apply Ho. }
    rewrite Rf in H. cbn [bind] in H. destruct f as [o|].
    + destruct Hf as (l1 & l2 & d & El2 & Ed & M & Hl). rewrite Ed in H. cbn [bind] in H. injection H as _ <-.
      assert (Ho : In o (fresh_filter T s l)) by (rewrite El2; apply in_or_app; right; left; reflexivity).
      exists l1, l2, o, d. rewrite EL. rewrite <- MM. rewrite O2 in Ed by exact Ho.
      split; [exact El2|]. split; [exact Ed|]. split.
      { apply fresh_filter_In in Ho. destruct Ho as (_ & Ho). unfold isstale in Ho. rewrite Ed in Ho. exact Ho. }
      split; [exact M|]. split; [reflexivity|]. intros o' d' Hin E'. rewrite <- MM. apply (Hl o' d' Hin).
      rewrite O2; [exact E'|]. rewrite El2. apply in_or_app; left; exact Hin.
    + cbn [bind] in H. injection H as _ <-. intros o d Hin Ed St. rewrite <- MM. apply (Hf o d).
      * apply fresh_filter_In. rewrite EL in Hin. split; [exact Hin|]. unfold isstale. rewrite Ed. exact St.
      * rewrite O2; [exact Ed|]. apply fresh_filter_In. rewrite EL in Hin. split; [exact Hin|]. unfold isstale. rewrite Ed. exact St.
  - cbn [bind] in H. injection H as _ <-. assert (EL : elist T s c = []) by (unfold elist; rewrite E, El; reflexivity).
    rewrite EL. intros o d [].
Qed.

Lemma map_tagval_inj s (deps deps' : list (option nat)) :
  (forall x t, tagof T s x = Some t -> (1 <= t)%Z) -> (forall x y t, tagof T s x = Some t -> tagof T s y = Some t -> x = y) ->
  deps_alive T s deps = true -> deps_alive T s deps' = true ->
  map (tagval T s) deps = map (tagval T s) deps' -> deps = deps'.
Proof.
  intros Hpos Hinj. revert deps'. induction deps as [|a deps IH]; intros [|b deps'] A B M; try discriminate; [reflexivity|].
  cbn [map] in M. injection M as M1 M2. cbn [deps_alive forallb] in A, B. apply andb_true_iff in A, B.
  destruct A as (A1 & A2), B as (B1 & B2). f_equal; [|apply IH; assumption].
  assert (Al : forall x, dep_alive T s (Some x) = true -> exists t, tagof T s x = Some t /\ (1 <= t)%Z).
  { intros x H. apply alive_tagof in H. destruct (tagof T s x) as [t|] eqn:Et; [|congruence]. exists t. split; [reflexivity|apply (Hpos x); exact Et]. }
  destruct a as [x|], b as [y|]; [| | |reflexivity].
  - destruct (Al x A1) as (t & Et & _), (Al y B1) as (t' & Et' & _). cbn [tagval] in M1. rewrite Et, Et' in M1. subst t'.
    f_equal. eapply Hinj; eassumption.
  - destruct (Al x A1) as (t & Et & Ht). cbn [tagval] in M1. rewrite Et in M1. lia.
  - destruct (Al y B1) as (t & Et & Ht). cbn [tagval] in M1. rewrite Et in M1. lia.
Qed.

Theorem hit_not_stale : forall th h s c deps scal r s',
  one_thread T th h -> (changes T h <= 2 ^ 32 - 1)%Z ->
  run T (init T) h = Ok s -> step T s (CGet T c deps scal) = Ok (s', Got T (Some r)) ->
  exists pre mid scal0, h = pre ++ CAdd T c r deps scal0 :: mid /\ scal_eq scal scal0 /\
    forall o, In o mid -> ~ outdates T o c deps.
Proof.
  intros th h s c deps scal r s' OT CH R G.
  pose proof (run_SInv h _ _ (SInv_init T) R) as I.
  destruct (get_spec s c deps scal s' (Some r) I G) as (AL & l1 & l2 & o & d & El & Ed & St & M & Rd & _).
  assert (Hin : In o (elist T s c)).
  { assert (Ho : In o (fresh_filter T s (elist T s c))) by (rewrite El; apply in_or_app; right; left; reflexivity).
    apply fresh_filter_In in Ho. apply Ho. }
  destruct (run_GI h s R c o d Hin Ed St) as (pre & mid & deps0 & E & Hm & _ & AL0 & DT).
  apply matches_spec in M; [|exact AL]. destruct M as (M1 & M2).
  destruct (tags_inj th h s R OT CH) as (HP & HI).
  assert (deps = deps0) as <- by (eapply (map_tagval_inj s); eauto; congruence).
  exists pre, mid, (dscal T d). rewrite <- Rd. repeat split; auto.
Qed.

(** ** Recently added results survive *)
Lemma neqb_refl_list scal : Forall (fun x => nnan x = false) scal -> Forall2 (fun x y => neqb x y = true) scal scal.
Proof.
  induction 1; constructor; [|assumption]. apply neqb_iff; auto.
Qed.


Lemma adds_app c (h h' : list op) : adds T c (h ++ h') = (adds T c h + adds T c h')%Z.
Proof. unfold adds. rewrite filter_app, app_length. lia. Qed.
Lemma adds_one c o : adds T c [o] = if adds_to T c o then 1%Z else 0%Z.
Proof. unfold adds. cbn [filter]. destruct (adds_to T c o); reflexivity. Qed.

Definition SV (o : nat) (c : nat) (r : T) deps scal (m : Z) (mid : list op) (s : st) : Prop :=
  (forall q, In q mid -> ~ outdates T q c deps) -> (forall q d1 d2, In q mid -> q <> CInvalidate T c d1 d2) ->
  ((0 <= m)%Z -> (adds T c mid < m)%Z) ->
  maxof T s c = Some m /\ exists l1 l2 d, elist T s c = l1 ++ o :: l2 /\ obss T s o = Some d /\ stale T d = false /\
    result T d = r /\ dscal T d = scal /\ (forall x, In x (subjects T d) <-> In (Some x) deps) /\
    dtags T d = map (tagval T s) deps /\ deps_alive T s deps = true /\
    (Z.of_nat (length l1) <= adds T c mid)%Z /\
    (forall o' d', In o' l1 -> obss T s o' = Some d' -> stale T d' = false -> origin mid s c d').

Lemma in_somes' x deps : In x (somes deps) <-> In (Some x) deps.
Proof.
  split; [|apply in_somes]. unfold somes. intros H. apply in_flat_map in H. destruct H as ([y|] & H1 & H2); [|contradiction].
  destruct H2 as [->|[]]. exact H1.
Qed.

Lemma filter_split {A} (f : A -> bool) l1 o l2 : f o = true -> filter f (l1 ++ o :: l2) = filter f l1 ++ o :: filter f l2.
Proof. intros H. rewrite filter_app. cbn [filter]. rewrite H. reflexivity. Qed.

Lemma SV_step o c r deps scal m mid s q s' : SV o c r deps scal m mid s -> SInv T s -> SInv T s' ->
  trans T s s' q -> fwd T s s' q -> lists T s s' q -> maxs T s s' q -> SV o c r deps scal m (mid ++ [q]) s'.
Proof.
  intros H I I' Tr FW LI MX Hout Hinv Hadds. rewrite adds_app, adds_one in *.
  pose proof (Zle_0_nat (length (filter (adds_to T c) mid))) as NN. fold (adds T c mid) in NN.
  destruct H as (Mx & l1 & l2 & d & EL & Ed & St & Rd & Sd & Sub & DT & AL & Len & Org).
  { intros q' Hq'. apply Hout. apply in_or_app; left; exact Hq'. }
  { intros q' a b Hq'. apply Hinv. apply in_or_app; left; exact Hq'. }
  { intros Hm. specialize (Hadds Hm). destruct (adds_to T c q); lia. }
  assert (Hq : ~ outdates T q c deps) by (apply Hout; apply in_or_app; right; left; reflexivity).
  assert (Hqi : forall a b, q <> CInvalidate T c a b) by (intros a b; apply Hinv; apply in_or_app; right; left; reflexivity).
  assert (Hdis : forall subs, (forall x, In x subs <-> In (Some x) deps) -> ~ disturbs T q c subs).
  { intros subs Hs Hd. apply Hq. destruct q; cbn in *; auto; apply Hs; exact Hd. }
  assert (Hmax : maxof T s' c = Some m).
  { rewrite MX. destruct q; auto; cbn in Hq.
    - destruct (c =? c0) eqn:E; [|exact Mx]. apply Nat.eqb_eq in E; subst c0. destruct LI as (L0 & _). rewrite L0 in EL.
      destruct l1; discriminate.
    - destruct (c =? c0) eqn:E; [|exact Mx]. apply Nat.eqb_eq in E; congruence.
    - destruct newmax; [|exact Mx]. destruct (c =? c0) eqn:E; [|exact Mx]. apply Nat.eqb_eq in E; congruence. }
  assert (Hst : isstale T s o = false) by (unfold isstale; rewrite Ed; exact St).
  (* the new list *)
  assert (exists l1' l2', elist T s' c = l1' ++ o :: l2' /\
     (Z.of_nat (length l1') <= adds T c mid + (if adds_to T c q then 1 else 0))%Z /\
     (forall o', In o' l1' -> In o' l1 \/ (o' = nextobs T s /\ exists rr dd ss, q = CAdd T c rr dd ss))) as (l1' & l2' & EL' & Len' & Sub').
  { assert (Same : elist T s' c = elist T s c -> adds_to T c q = false -> exists l1' l2', elist T s' c = l1' ++ o :: l2' /\
     (Z.of_nat (length l1') <= adds T c mid + (if adds_to T c q then 1 else 0))%Z /\
     (forall o', In o' l1' -> In o' l1 \/ (o' = nextobs T s /\ exists rr dd ss, q = CAdd T c rr dd ss))).
    { intros E0 E1. exists l1, l2. rewrite E0, E1. split; [exact EL|]. split; [lia|auto]. }
    assert (Ff : fresh_filter T s (l1 ++ o :: l2) = fresh_filter T s l1 ++ o :: fresh_filter T s l2)
      by (apply filter_split; rewrite Hst; reflexivity).
    assert (Fl : length (fresh_filter T s l1) <= length l1) by apply filter_len.
    destruct q; cbn [lists] in LI; try (apply Same; [solve [apply LI]|reflexivity]).
    - destruct (Nat.eq_dec c0 c) as [->|Ne]; [|apply Same; [apply (proj2 (proj2 LI)); auto|reflexivity]].
      destruct LI as (L0 & _). rewrite L0 in EL. destruct l1; discriminate.
    - cbn in Hq. apply Same; [apply (proj2 LI); auto|reflexivity].
    - cbn [adds_to]. destruct (Nat.eqb c0 c) eqn:Ec.
      + apply Nat.eqb_eq in Ec; subst c0. destruct LI as (LI & _).
        unfold maxof in Mx. destruct (caches T s c) as [ca|] eqn:Eca; [|discriminate]. cbn in Mx. injection Mx as Mx.
        specialize (LI ca eq_refl). rewrite EL, Ff, Mx in LI. unfold cap_list in LI.
        exists (nextobs T s :: fresh_filter T s l1).
        destruct (0 <=? m)%Z eqn:Em.
        * apply Z.leb_le in Em. specialize (Hadds Em). cbn [adds_to] in Hadds. rewrite Nat.eqb_refl in Hadds.
          rewrite app_comm_cons in LI. rewrite firstn_app in LI.
          rewrite (firstn_all2 (n := Z.to_nat m)) in LI by (cbn [length]; lia).
          replace (Z.to_nat m - length (nextobs T s :: fresh_filter T s l1)) with (S (Z.to_nat m - length (nextobs T s :: fresh_filter T s l1) - 1)) in LI
            by (cbn [length]; lia).
          cbn [firstn] in LI. eexists. split; [exact LI|]. split; [cbn [length]; lia|].
          intros o' [<-|Ho']; [right; split; [reflexivity|eauto]|left; apply fresh_filter_In in Ho'; apply Ho'].
        * eexists. split; [exact LI|]. split; [cbn [length]; lia|].
          intros o' [<-|Ho']; [right; split; [reflexivity|eauto]|left; apply fresh_filter_In in Ho'; apply Ho'].
      + apply Nat.eqb_neq in Ec. exists l1, l2. destruct LI as (_ & _ & LI). rewrite LI by auto. split; [exact EL|]. split; [lia|auto].
    - destruct LI as (LI1 & LI2). destruct (Nat.eq_dec c0 c) as [->|Ne]; [|apply Same; [apply LI2; auto|reflexivity]].
      rewrite EL, Ff in LI1. eexists. eexists. split; [exact LI1|]. cbn [adds_to]. split; [lia|].
      intros o' Ho'. left. apply fresh_filter_In in Ho'. apply Ho'.
    - destruct (Nat.eq_dec c0 c) as [->|Ne]; [destruct (Hqi deps0 scal0); reflexivity|]. apply Same; [apply (proj2 LI); auto|reflexivity].
    - cbn in Hq. apply Same; [apply (proj2 LI); auto|reflexivity]. }
  assert (Hin : In o (elist T s c)) by (rewrite EL; apply in_or_app; right; left; reflexivity).
  assert (Hin' : In o (elist T s' c)) by (rewrite EL'; apply in_or_app; right; left; reflexivity).
  destruct (FW c o d Hin Ed St (Hdis _ Sub) Hqi Hin') as (d' & Ed' & St' & (Sa & Sb & Sc) & Subs' & Tgs').
  destruct (deps_same s s' deps) as (Q1 & Q2); [intros x Hx; apply Tgs'; apply Sub; exact Hx|].
  split; [exact Hmax|]. exists l1', l2', d'. split; [exact EL'|]. split; [exact Ed'|]. split; [exact St'|].
  split; [congruence|]. split; [congruence|]. split; [|split; [rewrite Q2; congruence|split; [rewrite Q1; exact AL|split; [exact Len'|]]]].
  - intros x. rewrite <- Sub. symmetry. apply Subs'.
  - intros o' e' Ho' Ee' Se'. assert (Hi' : In o' (elist T s' c)) by (rewrite EL'; apply in_or_app; left; exact Ho').
    destruct (Tr c o' e' Hi' Ee' Se') as [(Hi & e & Ee & Se & Sm & Hsub & Hd)|(deps0 & -> & ALn & DTn & SB)].
    + eapply origin_step; try eassumption. destruct (Sub' o' Ho') as [Hl|(-> & _)]; [eapply Org; eassumption|].
      exfalso. assert (Al : alive T s (nextobs T s)) by (eexists; exact Ee). pose proof (iFresh T s I _ Al). lia.
    + exists mid, [], deps0. repeat split; auto. intros x Hx. rewrite SB. apply in_somes; exact Hx.
Qed.

Theorem recent_survives : forall th h c ca r deps scal mid s s1 s2,
  one_thread T th (h ++ CAdd T c r deps scal :: mid) -> (changes T (h ++ CAdd T c r deps scal :: mid) <= 2 ^ 32 - 1)%Z ->
  run T (init T) h = Ok s -> caches T s c = Some ca ->
  step T s (CAdd T c r deps scal) = Ok (s1, Done T) -> run T s1 mid = Ok s2 ->
  ((0 <= maxsize ca)%Z -> (adds T c mid < maxsize ca)%Z) ->
  (forall q, In q mid -> ~ outdates T q c deps) -> (forall q d1 d2, In q mid -> q <> CInvalidate T c d1 d2) ->
  Forall (fun x => nnan x = false) scal ->
  exists s3 r', step T s2 (CGet T c deps scal) = Ok (s3, Got T (Some r')) /\
    (r' = r \/ exists scal', In (CAdd T c r' deps scal') mid /\ scal_eq scal scal').
Proof.
  intros th h c ca r deps scal mid s s1 s2 OT CH R Eca RA RM Hadds Hout Hinv Hnan.
  pose proof (run_SInv h _ _ (SInv_init T) R) as I.
  destruct (step_good T s (CAdd T c r deps scal) I) as [B|(s1' & v & R1 & I1 & (Tr & FW) & L & M & TS)]; [rewrite B in RA; discriminate|].
  rewrite RA in R1. injection R1 as <- _.
  destruct (step_add_new T s c r deps scal s1 ca I Eca RA) as (d1 & AL1 & E1 & St1 & Rs1 & Sc1 & Dt1 & Sb1); [intros Hm; specialize (Hadds Hm); pose proof (Zle_0_nat (length (filter (adds_to T c) mid))); unfold adds in Hadds; lia|].
  assert (SV0 : SV (nextobs T s) c r deps scal (maxsize ca) [] s1).
  { intros _ _ Hm. split.
    - rewrite M. unfold maxof. rewrite Eca. reflexivity.
    - destruct L as (L & _). specialize (L ca Eca). exists [].
      assert (exists l2, elist T s1 c = nextobs T s :: l2) as (l2 & EL1).
      { rewrite L. unfold cap_list. destruct (0 <=? maxsize ca)%Z eqn:Em; [|eauto]. apply Z.leb_le in Em. specialize (Hm Em).
        unfold adds in Hm. cbn in Hm. destruct (Z.to_nat (maxsize ca)) eqn:En; [lia|]. cbn [firstn]. eauto. }
      exists l2, d1. split; [exact EL1|]. split; [exact E1|]. repeat split; auto.
      + intros Hx. rewrite Sb1 in Hx. apply in_somes'; exact Hx.
      + intros Hx. rewrite Sb1. apply in_somes'; exact Hx.
      + unfold adds; cbn; lia.
      + intros o' d' []. }
  destruct (run_ind (SV (nextobs T s) c r deps scal (maxsize ca)) s1 I1 SV0) with (h := mid) (s := s2) as (I2 & SV2); [|exact RM|].
  { intros h' s' o s'' HS Is Is' Trs FWs Ls Ms _. eapply SV_step; eassumption. }
  destruct (SV2 Hout Hinv Hadds) as (Mx & l1 & l2 & d & EL & Ed & St & Rd & Sd & Sub & DT & AL & Len & Org).
  destruct (step_good T s2 (CGet T c deps scal) I2) as [B|(s3 & v3 & R3 & _)].
  { exfalso. cbn [step] in B. rewrite AL in B. unfold cache_get in B. unfold maxof in Mx.
    destruct (caches T s2 c) as [ca2|] eqn:Eca2; [|discriminate]. destruct (entries ca2) as [l|] eqn:El2.
    - destruct (cleanup_cache T s2 c ca2 l I2 Eca2 El2) as (s4 & R4 & D4 & EL4 & I4 & O4). rewrite R4 in B. cbn [bind] in B.
      set (s5 := set_cache T s4 c _) in *.
      assert (AL5 : deps_alive T s5 deps = true) by (rewrite (deps_alive_frame T s2 s5); [exact AL|intros x; apply D4]).
      destruct (find_identical_ok T s5 deps scal AL5 (fresh_filter T s2 l)) as (f & Rf & Hf).
      { intros o Ho. unfold alive. rewrite O4 by exact Ho. apply fresh_filter_In in Ho. apply (iAlive T s2 I2 c). rewrite EL4. apply Ho. }
      rewrite Rf in B. cbn [bind] in B. destruct f as [o|]; [|discriminate B].
      destruct Hf as (? & ? & dd & _ & Edd & _). rewrite Edd in B. discriminate B.
    - discriminate B. }
  assert (exists rr, v3 = Got T rr) as (rr & ->).
  { cbn [step] in R3. destruct (deps_alive T s2 deps); [|discriminate]. destruct (cache_get T s2 c deps scal) as [[sx vx]| |]; cbn [bind] in R3; [|discriminate|discriminate].
    injection R3 as _ <-. eauto. }
  destruct (get_spec s2 c deps scal s3 rr I2 R3) as (_ & G).
  assert (Md : matches T s2 d deps scal = true).
  { apply matches_spec; [exact AL|]. split; [exact DT|]. rewrite Sd. apply neqb_refl_list; exact Hnan. }
  assert (Hin : In (nextobs T s) (elist T s2 c)) by (rewrite EL; apply in_or_app; right; left; reflexivity).
  destruct rr as [r'|].
  2:{ rewrite (G (nextobs T s) d Hin Ed St) in Md. discriminate. }
  exists s3, r'. split; [exact R3|].
  destruct G as (k1 & k2 & o & d' & EK & Eo & So & Mo & Ro & Hk).
  rewrite EL in EK. unfold fresh_filter in EK. rewrite filter_split in EK by (unfold isstale; rewrite Ed, St; reflexivity).
  (* o is either the new entry or before it *)
  assert (Hpos : o = nextobs T s \/ In o l1).
  { assert (W : forall (a : list nat) b x a' b' y, a ++ x :: b = a' ++ y :: b' -> y = x \/ In y a \/ In x a').
    { clear. induction a as [|z a IH]; intros b x [|z' a'] b' y H; cbn in H.
      - injection H as -> _; auto.
      - injection H as -> _. right; right; left; reflexivity.
      - injection H as -> _. right; left; left; reflexivity.
      - injection H as -> H. destruct (IH b x a' b' y H) as [->|[?|?]]; auto; right; [left|right]; right; assumption. }
    destruct (W _ _ _ _ _ _ EK) as [->|[Hi|Hi]]; [left; reflexivity|right; apply filter_In in Hi; apply Hi|].
    exfalso. pose proof (Hk _ d Hi Ed). congruence. }
  destruct Hpos as [->|Hpos].
  - left. rewrite Ed in Eo. injection Eo as <-. congruence.
  - right. destruct (Org o d' Hpos Eo So) as (pre & md & deps0 & Emid & _ & _ & ALo & DTo).
    apply matches_spec in Mo; [|exact AL]. destruct Mo as (Mo1 & Mo2).
    assert (RT : run T (init T) (h ++ CAdd T c r deps scal :: mid) = Ok s2).
    { rewrite run_app, R. cbn [bind run]. rewrite RA. cbn [bind]. exact RM. }
    destruct (tags_inj th _ s2 RT OT CH) as (HP & HI).
    assert (deps = deps0) as <- by (eapply (map_tagval_inj s2); eauto; congruence).
    exists (dscal T d'). rewrite <- Ro. split; [|exact Mo2]. rewrite Emid. apply in_or_app; right; left; reflexivity.
Qed.

(** ** Capacity *)
Theorem capacity : forall h s c ca, run T (init T) h = Ok s -> caches T s c = Some ca -> (0 <= maxsize ca)%Z ->
  (held T s c <= maxsize ca)%Z.
Proof.
  intros h s c ca R E Hm. pose proof (run_SInv h _ _ (SInv_init T) R) as I. pose proof (iCap T s I c ca E Hm) as H.
  unfold held. unfold elist in H. rewrite E in *. destruct (entries ca); cbn in *; lia.
Qed.

Theorem size_zero : forall h s c ca deps scal s' v, run T (init T) h = Ok s -> caches T s c = Some ca -> maxsize ca = 0%Z ->
  step T s (CGet T c deps scal) = Ok (s', Got T v) -> v = None.
Proof.
  intros h s c ca deps scal s' v R E Hm G. pose proof (run_SInv h _ _ (SInv_init T) R) as I.
  pose proof (iCap T s I c ca E) as H. rewrite Hm in H. specialize (H (Z.le_refl 0)).
  assert (EL : elist T s c = []) by (destruct (elist T s c); [reflexivity|cbn [length] in H; lia]).
  destruct (get_spec s c deps scal s' v I G) as (_ & K). destruct v as [v|]; [|reflexivity].
  destruct K as (l1 & l2 & o & d & K & _). rewrite EL in K. destruct l1; discriminate.
Qed.

Theorem observers_symmetric : forall h s, run T (init T) h = Ok s ->
  (forall sid sb o, subjs T s sid = Some sb -> 
     count_occ Nat.eq_dec (observers sb) o = match obss T s o with Some d => count_occ Nat.eq_dec (subjects T d) sid | None => 0 end) /\
  (forall o d sid, obss T s o = Some d -> 
     count_occ Nat.eq_dec (subjects T d) sid = match subjs T s sid with Some sb => count_occ Nat.eq_dec (observers sb) o | None => 0 end).
Proof.
  intros h s R. pose proof (iSym T s (run_SInv h _ _ (SInv_init T) R)) as HS. split.
  - intros sid sb o E. specialize (HS sid o). unfold so, os in HS. rewrite E in HS. exact HS.
  - intros o d sid E. specialize (HS sid o). unfold so, os in HS. rewrite E in HS. symmetry; exact HS.
Qed.

(** Every live result is owned by a cache: no result is leaked. *)
Theorem no_leak : forall h s o, run T (init T) h = Ok s -> obss T s o <> None ->
  exists c ca l, caches T s c = Some ca /\ entries ca = Some l /\ In o l.
Proof.
  intros h s o R Ho. pose proof (run_SInv h _ _ (SInv_init T) R) as I.
  destruct (obss T s o) as [d|] eqn:E; [|congruence].
  destruct (iOwned T s I o) as (c & Hc); [eexists; exact E|]. unfold elist in Hc.
  destruct (caches T s c) as [ca|] eqn:Eca; [|contradiction]. destruct (entries ca) as [l|] eqn:El; [|contradiction].
  exists c, ca, l. auto.
Qed.

(** ** Wrap-around of tags *)
Lemma repeat_changes : forall n s th x t, subjs T s x = Some (mkSubj t []) -> (0 <= uniq T s th < tag_mod)%Z -> exists s',
  run T s (repeat (OChange T th x) n) = Ok s' /\
  subjs T s' x = Some (mkSubj (match n with O => t | S k => (uniq T s th + Z.of_nat k) mod tag_mod end)%Z []).
Proof.
  intros n. induction n as [|n IH]; intros s th x t E U.
  - exists s. split; [reflexivity|exact E].
  - cbn [repeat run step]. unfold object_changed at 1. rewrite E. cbn [observers notify_all bind].
    set (s1 := set_uniq _ _ _). 
    assert (E1 : subjs T s1 x = Some (mkSubj (uniq T s th) [])) by (unfold s1; cbn [set_uniq set_subj subjs]; apply upd_same).
    assert (U1 : uniq T s1 th = ((uniq T s th + 1) mod tag_mod)%Z) by (unfold s1; cbn [set_uniq uniq]; apply upd_same).
    destruct (IH s1 th x (uniq T s th) E1) as (s' & R & E').
    { rewrite U1. apply Z.mod_pos_bound. reflexivity. }
    exists s'. split; [exact R|]. rewrite E'. f_equal. f_equal. destruct n as [|k].
    + rewrite Z.add_0_r. symmetry. apply Z.mod_small. exact U.
    + rewrite U1, Z.add_mod_idemp_l by discriminate. f_equal. lia.
Qed.
End P.
