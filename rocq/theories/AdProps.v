(** C26, C27, C28: the user's problem and the algorithm's problem correspond. *)
From Coq Require Import List Bool Arith ZArith Reals Lia Lra Sorted.
From Flocq Require Import Core Plus_error BinarySingleNaN.
From Verif Require Import Num VecModel VecProofs ExpModel ExpSpec ExpProofs AdModel AdSpec AdProofs AdMaps AdJac.
Import ListNotations.
Local Open Scope nat_scope.

Lemma map_via_seq {B} (g : nat -> B) l : map g l = map (fun k => g (nth k l 0)) (seq 0 (length l)).
Proof. rewrite <- (map_map (fun k => nth k l 0) g). rewrite map_nth_seq. reflexivity. Qed.

Section Props.
Context {T : Type} (O : nops T).
Variables (minf pinf : T) (t : treatment) (cs : bool) (xl xu gl gu : list T) (deps : list nat) (jac hess : list (nat * nat)).
Hypothesis LX : length xu = length xl.
Hypothesis LG : length gu = length gl.
Notation n := (length xl).
Notation m := (length gl).
Notation SPACES := (get_spaces O minf pinf t cs xl xu gl gu deps jac hess).
Notation z0 := (t0 O).

(** ** C26: rejection of contradictory bounds *)
Lemma bad_iff lo up i : bad O lo up i = true <-> contradictory O lo up i.
Proof.
  unfold bad, contradictory, tight, fx, lower, upper, AdModel.at_. rewrite andb_true_iff, negb_true_iff.
  destruct (teq _ _ _); intuition congruence.
Qed.
Lemma bad_false lo up i : bad O lo up i = false <-> ~ contradictory O lo up i.
Proof. rewrite <- bad_iff. destruct (bad O lo up i); intuition congruence. Qed.

Theorem C26_contradictory_variable i :
  SPACES = inr (BadVariable i) <->
  i < n /\ contradictory O xl xu i /\ forall j, j < i -> ~ contradictory O xl xu j.
Proof.
  unfold get_spaces. pose proof (@classify_run _ O minf pinf t xl xu gl gu LX LG) as H.
  destruct (classify O minf pinf t xl xu gl gu) as [[[t1 sx] sg]|[k|k]].
  - destruct H as (_ & _ & _ & H & _). split; [discriminate|]. intros (H1 & H2 & _). apply bad_iff in H2. rewrite H in H2 by auto. discriminate.
  - destruct H as (H1 & H2 & H3). split.
    + intros E. injection E as <-. split; auto. split; [apply bad_iff; auto|]. intros; apply bad_false; auto.
    + intros (G1 & G2 & G3). do 2 f_equal. apply bad_iff in G2. destruct (Nat.lt_trichotomy k i) as [L|[L|L]]; auto.
      * apply G3 in L. apply bad_false in L. congruence.
      * apply H3 in L. congruence.
  - destruct H as (H0 & _). split; [discriminate|]. intros (H1 & H2 & _). apply bad_iff in H2. rewrite H0 in H2 by auto. discriminate.
Qed.
Theorem C27_contradictory_constraint i :
  SPACES = inr (BadConstraint i) <->
  (forall j, j < n -> ~ contradictory O xl xu j) /\
  i < m /\ contradictory O gl gu i /\ forall j, j < i -> ~ contradictory O gl gu j.
Proof.
  unfold get_spaces. pose proof (@classify_run _ O minf pinf t xl xu gl gu LX LG) as H.
  destruct (classify O minf pinf t xl xu gl gu) as [[[t1 sx] sg]|[k|k]].
  - destruct H as (_ & _ & _ & _ & H). split; [discriminate|]. intros (_ & H1 & H2 & _). apply bad_iff in H2. rewrite H in H2 by auto. discriminate.
  - destruct H as (H1 & H2 & H3). split; [discriminate|]. intros (G & _). apply bad_iff in H2. specialize (G k H1). tauto.
  - destruct H as (H0 & H1 & H2 & H3). split.
    + intros E. injection E as <-. split; [intros; apply bad_false; auto|]. split; auto. split; [apply bad_iff; auto|]. intros; apply bad_false; auto.
    + intros (_ & G1 & G2 & G3). do 2 f_equal. apply bad_iff in G2. destruct (Nat.lt_trichotomy k i) as [L|[L|L]]; auto.
      * apply G3 in L. apply bad_false in L. congruence.
      * apply H3 in L. congruence.
Qed.
Theorem C26_accepted : (exists a, SPACES = inl a) <->
  (forall j, j < n -> ~ contradictory O xl xu j) /\ (forall j, j < m -> ~ contradictory O gl gu j).
Proof.
  unfold get_spaces. pose proof (@classify_run _ O minf pinf t xl xu gl gu LX LG) as H.
  destruct (classify O minf pinf t xl xu gl gu) as [[[t1 sx] sg]|[k|k]].
  - destruct H as (_ & _ & _ & H1 & H2). split; [|eauto]. intros _. split; intros; apply bad_false; auto.
  - destruct H as (H1 & H2 & _). split; [intros [a E]; discriminate|]. intros [G _]. apply bad_iff in H2. destruct (G k H1 H2).
  - destruct H as (_ & H1 & H2 & _). split; [intros [a E]; discriminate|]. intros [_ G]. apply bad_iff in H2. destruct (G k H1 H2).
Qed.

Variable a : adapter.
Hypothesis SD : StronglySorted lt deps.
Hypothesis A : SPACES = inl a.

(** the variables the algorithm sees: all, or all that are not fixed *)
Definition kept (tr : treatment) (i : nat) : Prop := ~ (tight O xl xu i /\ removing tr = true).

(** ** C26: which treatment is used *)
Theorem C26_treatment fixedv keptv eqc :
  enumerates n (tight O xl xu) fixedv -> enumerates n (kept t) keptv -> enumerates m (tight O gl gu) eqc ->
  a_t a = if negb (is_relax t) && negb (length fixedv =? 0) && (length keptv <? length eqc) && negb (length keptv =? 0)
          then RELAX_BOUNDS else t.
Proof.
  intros E1 E2 E3. destruct (@sp_all _ O minf pinf t cs xl xu gl gu deps jac hess a LX LG SD A) as (_ & _ & -> & _). unfold final_t, needs_relax.
  assert (F1 : fixedv = filter (fx O xl xu) (seq 0 n)).
  { eapply enumerates_unique; [exact E1|]. eapply enumerates_iff; [|apply enumerates_filter]. reflexivity. }
  assert (F2 : keptv = users O xl xu t).
  { eapply enumerates_unique; [exact E2|]. eapply enumerates_iff; [|apply enumerates_filter]. intros i Hi. unfold keep, kept, tight, fx, lower, upper, AdModel.at_.
    rewrite negb_true_iff, andb_false_iff. destruct (teq _ _ _), (removing t); intuition congruence. }
  assert (F3 : eqc = filter (fx O gl gu) (seq 0 m)).
  { eapply enumerates_unique; [exact E3|]. eapply enumerates_iff; [|apply enumerates_filter]. reflexivity. }
  subst. reflexivity.
Qed.

(** ** C26: the correspondence of variables. [us] gives for each variable of the
    algorithm the user's index. *)
Theorem C26_variables : exists us,
  enumerates n (kept (a_t a)) us /\ a_nvar a = length us /\
  (* from the user: the starting point and the gradient *)
  (forall full, length full = n -> start_x O a full = map (fun i => nth i full z0) us) /\
  (forall grad, length grad = n -> grad_values O a grad = map (fun i => nth i grad z0) us) /\
  (* to the user: the iterate with the fixed variables at their fixed value *)
  (forall mem x, length mem = n -> length (velems (length us) x) = length us ->
     let y := resort_x O a true (fix_values O a xl mem) x in
     length y = n /\
     (forall k, k < length us -> nth (nth k us 0) y z0 = nth k (velems (length us) x) z0) /\
     (forall i, i < n -> ~ kept (a_t a) i -> nth i y z0 = lower O xl i)) /\
  (* bounds *)
  (forall relax, let b := get_bounds O a relax xl xu gl gu in
     enumerates (length us) (fun k => let i := nth k us 0 in
        (tight O xl xu i /\ a_t a = RELAX_BOUNDS) \/ (~ tight O xl xu i /\ bounded_below O minf xl i)) (a_xlo a) /\
     b_xl b = map (fun k => lower O xl (nth k us 0)) (a_xlo a) /\
     enumerates (length us) (fun k => let i := nth k us 0 in
        (tight O xl xu i /\ a_t a = RELAX_BOUNDS) \/ (~ tight O xl xu i /\ bounded_above O pinf xu i)) (a_xup a) /\
     b_xu b = map (fun k => upper O xu (nth k us 0)) (a_xup a)).
Proof.
  set (us := users O xl xu (final_t O xl xu gl gu t)). exists us.
  assert (EN : enumerates n (kept (a_t a)) us) by exact (@us_enum _ O minf pinf t cs xl xu gl gu deps jac hess a LX LG SD A).
  split; [exact EN|]. split; [exact (@a_nvar_eq _ O minf pinf t cs xl xu gl gu deps jac hess a LX LG SD A)|]. split; [exact (@start_x_spec _ O minf pinf t cs xl xu gl gu deps jac hess a LX LG SD A)|]. split; [exact (@grad_spec _ O minf pinf t cs xl xu gl gu deps jac hess a LX LG SD A)|]. split.
  - intros mem x L1 L2. split; [exact (@resort_x_len _ O minf pinf t cs xl xu gl gu deps jac hess a LX LG SD A true _ x L2)|]. split.
    + intros k Hk. exact (@resort_x_kept _ O minf pinf t cs xl xu gl gu deps jac hess a LX LG SD A true _ x k L2 Hk).
    + intros i Hi N. apply (@resort_x_dropped _ O minf pinf t cs xl xu gl gu deps jac hess a LX LG SD A true mem x i L1 Hi). intros I. apply EN in I. tauto.
  - intros relax b. subst b. rewrite (@get_bounds_eq _ O minf pinf t cs xl xu gl gu deps jac hess a LX LG SD A relax). cbn [b_xl b_xu].
    assert (DEC : forall i, (tight O xl xu i -> True) /\ True) by auto.
    split; [|split; [reflexivity|split; [|reflexivity]]].
    + eapply enumerates_iff; [|exact (@xlo_enum _ O minf pinf t cs xl xu gl gu deps jac hess a LX LG SD A)]. intros k Hk. unfold has_lower, tight. cbv zeta. fold us. destruct (teq O _ _); intuition congruence.
    + eapply enumerates_iff; [|exact (@xup_enum _ O minf pinf t cs xl xu gl gu deps jac hess a LX LG SD A)]. intros k Hk. unfold has_upper, tight. cbv zeta. fold us. destruct (teq O _ _); intuition congruence.
Qed.

(** Bound multipliers go to the user's variables that have the bound; the others
    get zero. ([junk] is the uninitialised output array.) *)
Theorem C26_bound_multipliers us zl zu jl ju : enumerates n (kept (a_t a)) us ->
  length (velems (length (a_xlo a)) zl) = length (a_xlo a) -> length (velems (length (a_xup a)) zu) = length (a_xup a) ->
  length jl = n -> length ju = n ->
  let yl := resort_bound O a (a_xlo a) zl jl in let yu := resort_bound O a (a_xup a) zu ju in
  length yl = n /\ length yu = n /\
  (forall k, k < length (a_xlo a) -> nth (nth (nth k (a_xlo a) 0) us 0) yl z0 = nth k (velems (length (a_xlo a)) zl) z0) /\
  (forall k, k < length (a_xup a) -> nth (nth (nth k (a_xup a) 0) us 0) yu z0 = nth k (velems (length (a_xup a)) zu) z0) /\
  (forall i, i < n -> (forall k, In k (a_xlo a) -> nth k us 0 <> i) -> nth i yl z0 = z0) /\
  (forall i, i < n -> (forall k, In k (a_xup a) -> nth k us 0 <> i) -> nth i yu z0 = z0).
Proof.
  intros EN L1 L2 L3 L4 yl yu. assert (E : us = users O xl xu (final_t O xl xu gl gu t)) by (eapply enumerates_unique; [exact EN|exact (@us_enum _ O minf pinf t cs xl xu gl gu deps jac hess a LX LG SD A)]). subst us.
  destruct (@resort_bound_spec _ O minf pinf t cs xl xu gl gu deps jac hess a LX LG SD A _ (a_xlo a) zl jl (@xlo_enum _ O minf pinf t cs xl xu gl gu deps jac hess a LX LG SD A) L1 L3) as (A1 & A2 & A3).
  destruct (@resort_bound_spec _ O minf pinf t cs xl xu gl gu deps jac hess a LX LG SD A _ (a_xup a) zu ju (@xup_enum _ O minf pinf t cs xl xu gl gu deps jac hess a LX LG SD A) L2 L4) as (B1 & B2 & B3).
  repeat split; auto.
  - intros i Hi N. apply A3; auto. intros k K1 K2 K3. apply (N k); auto. apply (@xlo_enum _ O minf pinf t cs xl xu gl gu deps jac hess a LX LG SD A). auto.
  - intros i Hi N. apply B3; auto. intros k K1 K2 K3. apply (N k); auto. apply (@xup_enum _ O minf pinf t cs xl xu gl gu deps jac hess a LX LG SD A). auto.
Qed.
(** and back: the starting multipliers *)
Theorem C26_start_multipliers us full pos : enumerates n (kept (a_t a)) us -> (forall k, In k pos -> k < length us) ->
  start_z O a pos full = map (fun k => nth (nth k us 0) full z0) pos.
Proof.
  intros EN R. assert (E : us = users O xl xu (final_t O xl xu gl gu t)) by (eapply enumerates_unique; [exact EN|exact (@us_enum _ O minf pinf t cs xl xu gl gu deps jac hess a LX LG SD A)]). subst us.
  unfold start_z. apply map_ext_in. intros k Hk. rewrite (@full_index_eq _ O minf pinf t cs xl xu gl gu deps jac hess a LX LG SD A) by auto. reflexivity.
Qed.

(** The option value "relax_bounds" promises relaxed bounds for fixed variables
    (registered description: "Relax fixing bound constraints"). The bounds of
    fixed variables are passed on unchanged, whatever bound_relax_factor is. *)
Theorem C26_relaxed_fixed_bounds_refuted us relax k : enumerates n (kept (a_t a)) us -> a_t a = RELAX_BOUNDS ->
  k < length us -> tight O xl xu (nth k us 0) ->
  exists p q, nth p (a_xlo a) 0 = k /\ nth q (a_xup a) 0 = k /\
    nth p (b_xl (get_bounds O a relax xl xu gl gu)) z0 = lower O xl (nth k us 0) /\
    nth q (b_xu (get_bounds O a relax xl xu gl gu)) z0 = upper O xu (nth k us 0).
Proof.
  intros EN R Hk TT. assert (E : us = users O xl xu (final_t O xl xu gl gu t)) by (eapply enumerates_unique; [exact EN|exact (@us_enum _ O minf pinf t cs xl xu gl gu deps jac hess a LX LG SD A)]). subst us.
  assert (I1 : In k (a_xlo a)) by (apply (@xlo_enum _ O minf pinf t cs xl xu gl gu deps jac hess a LX LG SD A); split; auto; unfold has_lower; rewrite TT; auto).
  assert (I2 : In k (a_xup a)) by (apply (@xup_enum _ O minf pinf t cs xl xu gl gu deps jac hess a LX LG SD A); split; auto; unfold has_upper; rewrite TT; auto).
  apply (In_nth _ _ 0) in I1. destruct I1 as (p & P1 & P2). apply (In_nth _ _ 0) in I2. destruct I2 as (q & Q1 & Q2).
  exists p, q. rewrite (@get_bounds_eq _ O minf pinf t cs xl xu gl gu deps jac hess a LX LG SD A relax). cbn [b_xl b_xu]. repeat split; auto.
  - rewrite (@nth_map' _ _ _ p 0) by auto. rewrite P2. reflexivity.
  - rewrite (@nth_map' _ _ _ q 0) by auto. rewrite Q2. reflexivity.
Qed.

(** ** C27: the correspondence of constraints *)
Theorem C27_constraints eqc relax : enumerates m (tight O gl gu) eqc ->
  let b := get_bounds O a relax xl xu gl gu in
  (* equality constraints, without the dependent ones *)
  StronglySorted lt (a_c a) /\
  (forall i, In i (a_c a) <-> exists k, k < length eqc /\ nth k eqc 0 = i /\ ~ In k deps) /\
  firstn (length (a_c a)) (b_rhs b) = map (lower O gl) (a_c a) /\
  (* fixed variables become equality constraints exactly for make_constraint *)
  skipn (length (a_c a)) (b_rhs b) = (if is_constraint (a_t a) then map (lower O xl) (a_fix a) else []) /\
  (a_t a = MAKE_CONSTRAINT -> enumerates n (tight O xl xu) (a_fix a)) /\
  (* inequality constraints and their bounds *)
  enumerates m (fun i => ~ tight O gl gu i) (a_d a) /\
  enumerates (length (a_d a)) (fun k => bounded_below O minf gl (nth k (a_d a) 0)) (a_dlo a) /\
  b_dl b = map (fun k => lower O gl (nth k (a_d a) 0)) (a_dlo a) /\
  enumerates (length (a_d a)) (fun k => bounded_above O pinf gu (nth k (a_d a) 0)) (a_dup a) /\
  b_du b = map (fun k => upper O gu (nth k (a_d a) 0)) (a_dup a).
Proof.
  intros EN b. subst b. rewrite (@get_bounds_eq _ O minf pinf t cs xl xu gl gu deps jac hess a LX LG SD A relax). cbn [b_rhs b_dl b_du].
  assert (E : eqc = filter (fx O gl gu) (seq 0 m)) by (eapply enumerates_unique; [exact EN|apply eqs_enum]). subst eqc.
  split; [exact (@c_sorted _ O minf pinf t cs xl xu gl gu deps jac hess a LX LG SD A)|]. split; [exact (@c_in _ O minf pinf t cs xl xu gl gu deps jac hess a LX LG SD A)|].
  split; [rewrite firstn_app, map_length, Nat.sub_diag; cbn [firstn]; rewrite app_nil_r, <- (map_length (lower O gl) (a_c a)); apply firstn_all|].
  split; [rewrite skipn_app, map_length, Nat.sub_diag; cbn [skipn]; rewrite <- (map_length (lower O gl) (a_c a)), skipn_all; reflexivity|].
  split.
  { intros TT. split.
    - destruct (@sp_all _ O minf pinf t cs xl xu gl gu deps jac hess a LX LG SD A) as (_ & _ & _ & _ & _ & _ & -> & _). apply sorted_filter, seq_sorted.
    - intros i. rewrite (@fix_in _ O minf pinf t cs xl xu gl gu deps jac hess a LX LG SD A). rewrite TT. intuition congruence. }
  split; [exact (@d_enum _ O minf pinf t cs xl xu gl gu deps jac hess a LX LG SD A)|]. split; [exact (@dlo_enum _ O minf pinf t cs xl xu gl gu deps jac hess a LX LG SD A)|]. split; [reflexivity|]. split; [exact (@dup_enum _ O minf pinf t cs xl xu gl gu deps jac hess a LX LG SD A)|reflexivity].
Qed.

(** values of c(x) and d(x), from the user's g(x) *)
Theorem C27_values relax fg fx : length fg = m -> length fx = n ->
  let rhs := b_rhs (get_bounds O a relax xl xu gl gu) in
  c_values O a rhs fg fx =
    map (fun i => tsub O (nth i fg z0) (lower O gl i)) (a_c a) ++
    (if is_constraint (a_t a) then map (fun i => tsub O (nth i fx z0) (lower O xl i)) (a_fix a) else []) /\
  d_values' O a fg = map (fun i => nth i fg z0) (a_d a).
Proof.
  intros L1 L2 rhs. subst rhs. rewrite (@get_bounds_eq _ O minf pinf t cs xl xu gl gu deps jac hess a LX LG SD A relax). cbn [b_rhs]. unfold c_values, d_values', AdModel.at_. split; [|reflexivity]. f_equal.
  - rewrite (map_via_seq (fun i => tsub O (nth i fg z0) (lower O gl i)) (a_c a)). apply map_ext_in. intros k Hk. apply in_seq in Hk.
    rewrite app_nth1 by (rewrite map_length; lia). rewrite (@nth_map' _ _ _ k 0) by lia. reflexivity.
  - destruct (is_constraint (a_t a)); [|reflexivity].
    rewrite (map_via_seq (fun i => tsub O (nth i fx z0) (lower O xl i)) (a_fix a)). apply map_ext_in. intros k Hk. apply in_seq in Hk.
    rewrite app_nth2 by (rewrite map_length; lia). rewrite map_length. replace (length (a_c a) + k - length (a_c a)) with k by lia.
    rewrite (@nth_map' _ _ _ k 0) by lia. reflexivity.
Qed.

(** Multipliers (and, with [correct], constraint values) as returned to the
    user: [mem] is the user-sized array written into. *)
Theorem C27_returned correct rhs c d mem : length mem = m -> length (a_c a) <= length (velems (length (a_c a)) c) ->
  length (velems (length (a_d a)) d) = length (a_d a) ->
  let y := resort_g O a correct rhs c d (length (a_d a)) mem in
  length y = m /\
  (forall k, k < length (a_c a) -> nth (nth k (a_c a) 0) y z0 =
     if correct then tadd O (nth k (velems (length (a_c a)) c) z0) (nth k rhs z0) else nth k (velems (length (a_c a)) c) z0) /\
  (forall k, k < length (a_d a) -> nth (nth k (a_d a) 0) y z0 = nth k (velems (length (a_d a)) d) z0) /\
  (forall i, ~ In i (a_c a) -> ~ In i (a_d a) -> nth i y z0 = nth i mem z0).
Proof. exact (@resort_g_spec _ O minf pinf t cs xl xu gl gu deps jac hess a LX LG SD A correct rhs c d mem). Qed.
(** and the starting multipliers from the user *)
Theorem C27_start_multipliers lam zl zu :
  start_yd O a lam = map (fun i => nth i lam z0) (a_d a) /\
  firstn (length (a_c a)) (start_yc O a lam zl zu) = map (fun i => nth i lam z0) (a_c a) /\
  (a_t a = MAKE_CONSTRAINT -> skipn (length (a_c a)) (start_yc O a lam zl zu) = map (fun i => tsub O (nth i zu z0) (nth i zl z0)) (a_fix a)).
Proof.
  unfold start_yc, start_yd. split; [reflexivity|]. split.
  - rewrite firstn_app, map_length, Nat.sub_diag. cbn [firstn]. rewrite app_nil_r, <- (map_length (AdModel.at_ O lam) (a_c a)) at 1. apply firstn_all.
  - intros ->. cbn [is_constraint]. rewrite skipn_app, map_length, Nat.sub_diag. cbn [skipn].
    rewrite <- (map_length (AdModel.at_ O lam) (a_c a)) at 1. rewrite skipn_all. reflexivity.
Qed.

(** ** C28: matrix entries *)
Definition zero_based (k : nat) : nat := if cs then k else k - 1.
Lemma fortran_zero k : fortran cs k - 1 = zero_based k.
Proof. unfold fortran, zero_based. destruct cs; lia. Qed.
Notation user_pos := (map (fun e => (zero_based (fst e), zero_based (snd e)))).
Lemma fort_map l : map (fun e : nat * nat => (fst e - 1, snd e - 1)) (map (fun p => (fortran cs (fst p), fortran cs (snd p))) l) = user_pos l.
Proof. rewrite map_map. apply map_ext. intros [r c]. cbn [fst snd]. rewrite !fortran_zero. reflexivity. Qed.

Hypothesis JR : Forall (fun e => zero_based (fst e) < m /\ zero_based (snd e) < n) jac.
Hypothesis HR : Forall (fun e => zero_based (fst e) < n /\ zero_based (snd e) < n) hess.

Lemma colpos_sel rows : positions m rows ->
  select (compressed_pos m rows) (option_map (compressed_pos n) (a_vars a)) 0 (map (fun p => (fortran cs (fst p), fortran cs (snd p))) jac) =
  select (compressed_pos m rows) (Some (compressed_pos n (users O xl xu (final_t O xl xu gl gu t)))) 0 (map (fun p => (fortran cs (fst p), fortran cs (snd p))) jac).
Proof.
  intros P. destruct (@vars_cases _ O minf pinf t cs xl xu gl gu deps jac hess a LX LG SD A) as [->|[-> E]]; [reflexivity|]. rewrite E. cbn [option_map]. apply select_none.
  apply Forall_forall. intros e He. apply in_map_iff in He. destruct He as (p & <- & Hp). cbn [snd]. rewrite fortran_zero.
  rewrite Forall_forall in JR. apply (JR p Hp).
Qed.
Lemma colpos_h :
  a_h a = select_h (Some (compressed_pos n (users O xl xu (final_t O xl xu gl gu t)))) 0 (map (fun p => (fortran cs (fst p), fortran cs (snd p))) hess).
Proof.
  destruct (@sp_jac _ O minf pinf t cs xl xu gl gu deps jac hess a LX LG A) as (_ & _ & _ & _ & ->). destruct (@vars_cases _ O minf pinf t cs xl xu gl gu deps jac hess a LX LG SD A) as [->|[-> E]]; [reflexivity|]. rewrite E. cbn [option_map]. apply select_h_none.
  apply Forall_forall. intros e He. apply in_map_iff in He. destruct He as (p & <- & Hp). cbn [snd fst]. rewrite !fortran_zero.
  rewrite Forall_forall in HR. apply (HR p Hp).
Qed.

Lemma entries_app (t1 t2 : list (nat * nat)) (v1 v2 : list T) r c : length t1 = length v1 -> entries (t1 ++ t2) (v1 ++ v2) r c = entries t1 v1 r c ++ entries t2 v2 r c.
Proof. intros L. unfold entries. rewrite combine_app by auto. rewrite filter_app, map_app. reflexivity. Qed.
Lemma entries_nil (tr : list (nat * nat)) (v : list T) r c : Forall (fun e => fst e <> r) tr -> entries tr v r c = [].
Proof.
  intros F. unfold entries. revert v. induction F as [|[x y] l H F IH]; intros v; [reflexivity|]. destruct v as [|w v]; [reflexivity|].
  cbn [combine filter fst snd]. replace (x =? r) with false by (symmetry; apply Nat.eqb_neq; exact H). cbn [andb]. apply IH.
Qed.

(** the entries of jac_c, jac_d and of the Hessian of the algorithm at (p, q)
    are, in this order, the values given by the user for the corresponding
    constraint and variables *)
Theorem C28_jacobian us vals p q : enumerates n (kept (a_t a)) us -> length vals = length jac -> q < length us ->
  (p < length (a_c a) ->
     entries (map at0 (a_jc a) ++ map (fun e => (fst e - 1, snd e - 1)) (a_jx a)) (jac_c_values O a vals) p q =
     entries (user_pos jac) vals (nth p (a_c a) 0) (nth q us 0)) /\
  (p < length (a_d a) ->
     entries (map at0 (a_jd a)) (jac_d_values O a vals) p q = entries (user_pos jac) vals (nth p (a_d a) 0) (nth q us 0)).
Proof.
  intros EN LV Hq. assert (E : us = users O xl xu (final_t O xl xu gl gu t)) by (eapply enumerates_unique; [exact EN|exact (@us_enum _ O minf pinf t cs xl xu gl gu deps jac hess a LX LG SD A)]).
  pose proof (@us_pos _ O minf pinf t cs xl xu gl gu deps jac hess a LX LG SD A) as UP. destruct (@sp_jac _ O minf pinf t cs xl xu gl gu deps jac hess a LX LG A) as (J1 & J2 & J3 & _). split; intros Hp.
  - unfold jac_c_values. rewrite entries_app by (rewrite !map_length; reflexivity).
    rewrite (@entries_nil (map _ (a_jx a))), app_nil_r.
    + rewrite J1. rewrite (colpos_sel (a_c a)) by exact (@c_pos _ O minf pinf t cs xl xu gl gu deps jac hess a LX LG SD A). rewrite <- E in *.
      unfold AdModel.at_. rewrite (@select_entries _ O m n (a_c a) us (@c_pos _ O minf pinf t cs xl xu gl gu deps jac hess a LX LG SD A) UP vals p q Hp Hq) by (rewrite map_length; simpl; lia).
      rewrite fort_map. reflexivity.
    + rewrite J3. apply Forall_forall. intros e He. apply in_map_iff in He. destruct He as (f & <- & Hf). cbn [fst].
      destruct (removing _); [destruct Hf|]. apply in_map_iff in Hf. destruct Hf as (k & <- & Hk). cbn [fst]. lia.
  - unfold jac_d_values. rewrite J2. rewrite (colpos_sel (a_d a)) by exact (@d_pos _ O minf pinf t cs xl xu gl gu deps jac hess a LX LG SD A). rewrite <- E in *.
    unfold AdModel.at_. rewrite (@select_entries _ O m n (a_d a) us (@d_pos _ O minf pinf t cs xl xu gl gu deps jac hess a LX LG SD A) UP vals p q Hp Hq) by (rewrite map_length; simpl; lia).
    rewrite fort_map. reflexivity.
Qed.
Theorem C28_hessian us vals p q : enumerates n (kept (a_t a)) us -> length vals = length hess -> p < length us -> q < length us ->
  entries (map at0 (a_h a)) (h_values O a vals) p q = entries (user_pos hess) vals (nth p us 0) (nth q us 0).
Proof.
  intros EN LV Hp Hq. assert (E : us = users O xl xu (final_t O xl xu gl gu t)) by (eapply enumerates_unique; [exact EN|exact (@us_enum _ O minf pinf t cs xl xu gl gu deps jac hess a LX LG SD A)]).
  pose proof (@us_pos _ O minf pinf t cs xl xu gl gu deps jac hess a LX LG SD A) as UP. unfold h_values. rewrite colpos_h. rewrite <- E in *. unfold AdModel.at_.
  rewrite (@select_h_entries _ O n us UP vals p q Hp Hq) by (rewrite map_length; simpl; lia). rewrite fort_map. reflexivity.
Qed.
(** the added rows of jac_c: row n_c + k is the unit row of the k-th fixed variable *)
Theorem C28_added_rows vals k q : a_t a = MAKE_CONSTRAINT -> k < length (a_fix a) ->
  entries (map at0 (a_jc a) ++ map (fun e => (fst e - 1, snd e - 1)) (a_jx a)) (jac_c_values O a vals) (length (a_c a) + k) q =
  if nth k (a_fix a) 0 =? q then [t1 O] else [].
Proof.
  intros TT Hk. unfold jac_c_values. rewrite entries_app by (rewrite !map_length; reflexivity). destruct (@sp_jac _ O minf pinf t cs xl xu gl gu deps jac hess a LX LG A) as (J1 & J2 & J3 & _).
  pose proof (@us_pos _ O minf pinf t cs xl xu gl gu deps jac hess a LX LG SD A) as UP.
  rewrite entries_nil; [cbn [app]|].
  - rewrite J3, TT. cbn [is_constraint]. rewrite <- (@a_t_eq _ O minf pinf t cs xl xu gl gu deps jac hess a LX LG SD A), TT. cbn [removing].
    rewrite map_map. cbn [fst snd]. unfold entries.
    assert (G : forall (l : list nat) s (f : list nat), s + length l = length f -> 
      map snd (filter (fun e : nat * nat * T => (fst (fst e) =? length (a_c a) + k) && (snd (fst e) =? q))
        (combine (map (fun x => (length (a_c a) + x + 1 - 1, nth x f 0 + 1 - 1)) (seq s (length l))) (repeat (t1 O) (length l)))) =
      if (s <=? k) && (k <? s + length l) && (nth k f 0 =? q) then [t1 O] else []).
    { clear. induction l as [|y l IH]; intros s f H.
      - cbn [length seq map repeat combine filter]. replace ((s <=? k) && (k <? s + 0)) with false; [reflexivity|].
        symmetry. apply andb_false_iff. rewrite Nat.leb_gt, Nat.ltb_ge. lia.
      - cbn [length seq map repeat combine filter fst snd]. cbn [length] in H.
        replace (length (a_c a) + s + 1 - 1 =? length (a_c a) + k) with (s =? k) by (apply eq_true_iff_eq; rewrite !Nat.eqb_eq; lia).
        specialize (IH (S s) f ltac:(lia)). replace (nth s f 0 + 1 - 1) with (nth s f 0) by lia.
        destruct (Nat.eq_dec s k) as [->|NE].
        + rewrite Nat.eqb_refl. replace ((k <=? k) && (k <? k + S (length l))) with true by (symmetry; apply andb_true_iff; rewrite Nat.leb_le, Nat.ltb_lt; lia).
          cbn [andb]. replace ((S k <=? k) && (k <? S k + length l)) with false in IH by (symmetry; apply andb_false_iff; rewrite Nat.leb_gt; lia).
          cbn [andb] in IH. destruct (nth k f 0 =? q); cbn [map snd]; rewrite IH; reflexivity.
        + replace (s =? k) with false by (symmetry; apply Nat.eqb_neq; auto). cbn [andb]. rewrite IH.
          replace (S s + length l) with (s + S (length l)) by lia.
          replace (S s <=? k) with (s <=? k); [reflexivity|]. apply eq_true_iff_eq. rewrite !Nat.leb_le. lia. }
    rewrite (G (a_fix a) 0 (a_fix a) eq_refl). replace ((0 <=? k) && (k <? 0 + length (a_fix a))) with true; [reflexivity|].
    symmetry. apply andb_true_iff. rewrite Nat.leb_le, Nat.ltb_lt. lia.
  - rewrite J1, (colpos_sel (a_c a)) by exact (@c_pos _ O minf pinf t cs xl xu gl gu deps jac hess a LX LG SD A).
    pose proof (@select_range m n (a_c a) _ (@c_pos _ O minf pinf t cs xl xu gl gu deps jac hess a LX LG SD A) UP (map (fun p => (fortran cs (fst p), fortran cs (snd p))) jac) 0) as R.
    apply Forall_forall. intros e He. apply in_map_iff in He. destruct He as (f & <- & Hf). rewrite Forall_forall in R. specialize (R f Hf). cbn [at0 fst]. lia.
Qed.
(** all positions are inside the matrices: c has [length (a_c a)] rows plus the
    added ones, d [length (a_d a)], and each has [a_nvar a] columns *)
Theorem C28_in_range :
  Forall (fun e => 1 <= je_row e <= length (a_c a) /\ 1 <= je_col e <= a_nvar a) (a_jc a) /\
  Forall (fun e => 1 <= je_row e <= length (a_d a) /\ 1 <= je_col e <= a_nvar a) (a_jd a) /\
  Forall (fun e => 1 <= je_row e <= a_nvar a /\ 1 <= je_col e <= a_nvar a) (a_h a).
Proof.
  pose proof (@us_pos _ O minf pinf t cs xl xu gl gu deps jac hess a LX LG SD A) as UP. destruct (@sp_jac _ O minf pinf t cs xl xu gl gu deps jac hess a LX LG A) as (J1 & J2 & _). rewrite (@a_nvar_eq _ O minf pinf t cs xl xu gl gu deps jac hess a LX LG SD A).
  repeat split.
  - rewrite J1, (colpos_sel (a_c a)) by exact (@c_pos _ O minf pinf t cs xl xu gl gu deps jac hess a LX LG SD A). eapply Forall_impl; [|apply (@select_range m n (a_c a) _ (@c_pos _ O minf pinf t cs xl xu gl gu deps jac hess a LX LG SD A) UP)]. cbv beta. tauto.
  - rewrite J2, (colpos_sel (a_d a)) by exact (@d_pos _ O minf pinf t cs xl xu gl gu deps jac hess a LX LG SD A). eapply Forall_impl; [|apply (@select_range m n (a_d a) _ (@d_pos _ O minf pinf t cs xl xu gl gu deps jac hess a LX LG SD A) UP)]. cbv beta. tauto.
  - rewrite colpos_h. eapply Forall_impl; [|apply (@select_h_range n _ UP)]. cbv beta. tauto.
Qed.
End Props.
