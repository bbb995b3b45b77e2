(** C43: bound multipliers returned for fixed variables (exact arithmetic);
    examples for C26-C28 and C43. *)
From Coq Require Import List Bool Arith ZArith Reals Lia Lra Sorted.
From Flocq Require Import Core BinarySingleNaN.
From Verif Require Import Num VecModel VecProofs ExpModel ExpSpec ExpProofs AdModel AdSpec AdProofs AdMaps AdJac AdProps AdFeas.
Import ListNotations.
Local Open Scope R_scope.

(** element i of J^T lambda for the user's Jacobian triplets (0-based) *)
Fixpoint jt_times (trip : list (nat * nat)) (vals : list R) (lam : list R) (i : nat) : R :=
  match trip, vals with
  | (r, c) :: trip, v :: vals => (if Nat.eqb c i then nth r lam 0 * v else 0) + jt_times trip vals lam i
  | _, _ => 0
  end.

Lemma fortran_zero' cs k : (fortran cs k - 1 = zero_based cs k)%nat.
Proof. unfold fortran, zero_based. destruct cs; lia. Qed.
Lemma fort_map' cs l : map (fun e : nat * nat => (fst e - 1, snd e - 1)%nat) (map (fun p => (fortran cs (fst p), fortran cs (snd p))) l)
  = map (fun e => (zero_based cs (fst e), zero_based cs (snd e))) l.
Proof. rewrite map_map. apply map_ext. intros [r c]. cbn [fst snd]. rewrite !fortran_zero'. reflexivity. Qed.

Lemma select_fixed_cols cs m n cp : forall l k, Forall (fun e => zero_based cs (fst e) < m /\ zero_based cs (snd e) < n)%nat l ->
  forall e, In e (select_fixed cp k (map (fun p => (fortran cs (fst p), fortran cs (snd p))) l)) -> (je_col e - 1 < n)%nat.
Proof.
  induction l as [|[r c] l IH]; intros k J e He; [destruct He|]. inversion J as [|? ? J1 J2]; subst. cbn [map fst snd select_fixed] in He.
  cbn [fst snd] in J1. destruct (_ =? _)%Z; [destruct He as [<-|He]|]; [cbn [je_col]; rewrite fortran_zero'; tauto| |]; eapply IH; eauto.
Qed.

Section Mult.
Variable lg : R -> R.
Notation O := (R_ops lg).
Variables (minf pinf : R) (t : treatment) (cs : bool) (xl xu gl gu : list R) (deps : list nat) (jac hess : list (nat * nat)) (a : adapter).
Hypothesis LX : length xu = length xl.
Hypothesis LG : length gu = length gl.
Hypothesis SD : StronglySorted lt deps.
Hypothesis A : get_spaces O minf pinf t cs xl xu gl gu deps jac hess = inl a.
Notation n := (length xl).
Notation m := (length gl).
Hypothesis JR : Forall (fun e => zero_based cs (fst e) < m /\ zero_based cs (snd e) < n)%nat jac.

Lemma tmax_R x y : tmax O x y = Rmax x y.
Proof.
  unfold tmax. cbn [R_ops tlt]. case Rlt_bool_spec; intros H; unfold Rmax; destruct (Rle_dec x y); lra.
Qed.
Lemma split_parts v : 0 <= Rmax 0 v /\ 0 <= Rmax 0 (- v) /\ Rmax 0 v - Rmax 0 (- v) = v /\ Rmax 0 v * Rmax 0 (- v) = 0.
Proof. unfold Rmax. destruct (Rle_dec 0 v), (Rle_dec 0 (- v)); repeat split; try lra; nra. Qed.

(** the sum of the contributions of a list of entries *)
Fixpoint esum (F : jentry -> R) (es : list jentry) (i : nat) : R :=
  match es with [] => 0 | e :: es => (if Nat.eqb (je_col e - 1) i then F e else 0) + esum F es i end.
Definition lam_of (yc yd : xvec (T:=R)) (row : nat) : R :=
  if negb (posof (compressed_pos (a_m a) (a_c a)) row =? -1)%Z then vat O yc (Z.to_nat (posof (compressed_pos (a_m a) (a_c a)) row))
  else if negb (posof (compressed_pos (a_m a) (a_d a)) row =? -1)%Z then vat O yd (Z.to_nat (posof (compressed_pos (a_m a) (a_d a)) row)) else 0.
Lemma add_fixed_sum vals yc yd i : forall es mult, (forall e, In e es -> je_col e - 1 < length mult)%nat ->
  nth i (add_fixed O a (compressed_pos (a_m a) (a_c a)) (compressed_pos (a_m a) (a_d a)) vals yc yd es mult) 0 =
  nth i mult 0 + esum (fun e => lam_of yc yd (je_row e - 1) * nth (je_src e) vals 0) es i.
Proof.
  induction es as [|e es IH]; intros mult R; cbn [add_fixed esum]; [lra|].
  rewrite IH.
  - match goal with |- nth i (upd _ (tadd _ _ (tmul _ ?L _)) _) _ + _ = _ => change L with (lam_of yc yd (je_row e - 1)) end.
    cbn [R_ops tadd tmul t0]. unfold AdModel.at_. cbn [R_ops t0].
    destruct (Nat.eqb (je_col e - 1) i) eqn:E.
    + apply Nat.eqb_eq in E. subst i. rewrite nth_upd_same by (apply R; left; auto). lra.
    + apply Nat.eqb_neq in E. rewrite nth_upd_other by auto. lra.
  - intros e' H. rewrite upd_length. apply R. right; auto.
Qed.

Lemma resort_lambda yc yd row : (length (a_c a) <= length (velems (length (a_c a)) yc))%nat ->
  length (velems (length (a_d a)) yd) = length (a_d a) -> (row < m)%nat ->
  lam_of yc yd row = nth row (resort_g O a false [] yc yd (length (a_d a)) (repeat 0 m)) 0.
Proof.
  intros L1 L2 Hr.
  destruct (@resort_g_spec _ O minf pinf t cs xl xu gl gu deps jac hess a LX LG SD A false [] yc yd (repeat 0 m) (repeat_length _ _) L1 L2) as (G0 & G1 & G2 & G3).
  cbn [R_ops t0] in G1, G2, G3.
  pose proof (@c_pos _ O minf pinf t cs xl xu gl gu deps jac hess a LX LG SD A) as PC.
  pose proof (@d_pos _ O minf pinf t cs xl xu gl gu deps jac hess a LX LG SD A) as PD.
  unfold lam_of. rewrite (@a_m_eq _ O minf pinf t cs xl xu gl gu deps jac hess a LX LG SD A).
  destruct (posof_cases row PC) as [(k & K1 & K2 & K3)|[K1 K2]].
  - rewrite K3. replace (Z.of_nat k =? -1)%Z with false by (symmetry; apply Z.eqb_neq; lia). cbn [negb]. rewrite Nat2Z.id.
    rewrite <- K2, G1 by auto. destruct yc as [s|l]; [|reflexivity]. apply (@vat_elems _ O (length (a_c a)) (Homog s)); auto. apply repeat_length.
  - rewrite K2. cbn [Z.eqb negb].
    destruct (posof_cases row PD) as [(k & Q1 & Q2 & Q3)|[Q1 Q2]].
    + rewrite Q3. replace (Z.of_nat k =? -1)%Z with false by (symmetry; apply Z.eqb_neq; lia). cbn [negb]. rewrite Nat2Z.id.
      rewrite <- Q2, G2 by auto. apply (@vat_elems _ O (length (a_d a)) yd); auto.
    + rewrite Q2. cbn [Z.eqb negb]. rewrite G3 by auto. symmetry. apply nth_repeat.
Qed.

Lemma fixed_sum (us : list nat) (lamf : nat -> R) (lam vals : list R) i : positions n us -> ~ In i us ->
  forall trip k, (forall r c, In (r, c) trip -> lamf (r - 1)%nat = nth (r - 1) lam 0) ->
  (k + length trip)%nat = length vals ->
  esum (fun e => lamf (je_row e - 1)%nat * nth (je_src e) vals 0) (select_fixed (compressed_pos n us) k trip) i =
  jt_times (map (fun e => (fst e - 1, snd e - 1)%nat) trip) (skipn k vals) lam i.
Proof.
  intros P N. induction trip as [|[r c] trip IH]; intros k L Hk; [reflexivity|].
  cbn [length] in Hk. rewrite (@skipn_cons _ 0) by lia. cbn [map fst snd jt_times].
  specialize (IH (S k) (fun r0 c0 H => L r0 c0 (or_intror H)) ltac:(lia)). cbn [select_fixed].
  destruct (posof (compressed_pos n us) (c - 1) =? -1)%Z eqn:E.
  - cbn [esum je_row je_col je_src]. rewrite IH, (L r c (or_introl eq_refl)). reflexivity.
  - rewrite IH. replace (Nat.eqb (c - 1) i) with false; [lra|]. symmetry. apply Nat.eqb_neq. intros EQ. rewrite EQ in E. destruct (posof_cases i P) as [(q & Q1 & Q2 & Q3)|[Q1 Q2]]; [rewrite Q3 in E; apply Z.eqb_neq in E; apply N; rewrite <- Q2; apply nth_In; auto|rewrite Q2 in E; discriminate E].
Qed.

Lemma tight_bool i : tight O xl xu i <-> fx O xl xu i = true.
Proof. reflexivity. Qed.

(** make_parameter: the multipliers of the bounds of a fixed variable are the
    positive and negative part of the gradient of the Lagrangian without them.
    [zl], [zu] are the user's arrays after the multipliers of the other
    variables have been put in. *)
Theorem C43_make_parameter grad vals yc yd zl zu :
  a_t a = MAKE_PARAMETER -> length grad = n -> length vals = length jac -> length zl = n -> length zu = n ->
  (length (a_c a) <= length (velems (length (a_c a)) yc))%nat -> length (velems (length (a_d a)) yd) = length (a_d a) ->
  let lam := resort_g O a false [] yc yd (length (a_d a)) (repeat 0 m) in       (* the multipliers the user gets *)
  let user_jac := map (fun e => (zero_based cs (fst e), zero_based cs (snd e))) jac in
  let z := bound_mult_parameter O a grad vals yc yd (zl, zu) in
  (forall i, (i < n)%nat -> tight O xl xu i ->
     0 <= nth i (fst z) 0 /\ 0 <= nth i (snd z) 0 /\ nth i (fst z) 0 * nth i (snd z) 0 = 0 /\
     nth i grad 0 + jt_times user_jac vals lam i - nth i (fst z) 0 + nth i (snd z) 0 = 0) /\
  (forall i, (i < n)%nat -> ~ tight O xl xu i -> nth i (fst z) 0 = nth i zl 0 /\ nth i (snd z) 0 = nth i zu 0).
Proof.
  intros TT Lg Lv Lzl Lzu L1 L2 lam uj z.
  pose proof (@fix_in _ O minf pinf t cs xl xu gl gu deps jac hess a LX LG SD A) as FI. rewrite TT in FI.
  pose proof (@fix_pos _ O minf pinf t cs xl xu gl gu deps jac hess a LX LG SD A) as [FN FR].
  pose proof (@us_pos _ O minf pinf t cs xl xu gl gu deps jac hess a LX LG SD A) as UP.
  pose proof (@us_enum _ O minf pinf t cs xl xu gl gu deps jac hess a LX LG SD A) as UE. rewrite TT in UE.
  subst z. unfold bound_mult_parameter. set (mult := add_fixed O a _ _ vals yc yd (a_jfix a) grad). cbn [fst snd]. cbn [R_ops t0 topp]. split.
  - intros i Hi Ti. assert (IF : In i (a_fix a)) by (apply FI; repeat split; auto; discriminate).
    assert (GET : forall (f : nat -> R) z0, length z0 = n -> nth i (put (a_fix a) (map f (a_fix a)) z0) 0 = f i).
    { intros f z0 Lz. apply (In_nth _ _ 0%nat) in IF. destruct IF as (k & K1 & K2). rewrite <- K2.
      pose proof (@put_in _ O (a_fix a) FN (map f (a_fix a)) z0 k) as PI. cbn [R_ops t0] in PI. rewrite PI; auto.
      - rewrite (@nth_map' _ _ f k 0%nat) by auto. reflexivity.
      - apply map_length.
      - rewrite Lz. exact FR. }
    rewrite !GET by auto. unfold AdModel.at_. cbn [R_ops t0]. rewrite !tmax_R.
    assert (M : nth i mult 0 = nth i grad 0 + jt_times uj vals lam i).
    { subst mult. rewrite add_fixed_sum.
      - f_equal.
        destruct (@sp_jac _ O minf pinf t cs xl xu gl gu deps jac hess a LX LG A) as (_ & _ & _ & JF & _).
        rewrite JF. rewrite <- (@a_t_eq _ O minf pinf t cs xl xu gl gu deps jac hess a LX LG SD A), TT. cbn [is_parameter].
        set (us := users O xl xu (final_t O xl xu gl gu t)) in *.
        assert (NI : ~ In i us) by (intros I; apply UE in I; destruct I as [_ I]; apply I; split; auto).
        destruct (@vars_cases _ O minf pinf t cs xl xu gl gu deps jac hess a LX LG SD A) as [V|[V E]]; fold us in V; try fold us in E.
        + rewrite V. cbn [option_map]. rewrite (fixed_sum us (lam_of yc yd) lam vals i UP NI).
          * cbn [skipn]. rewrite fort_map'. reflexivity.
          * intros r c I. apply in_map_iff in I. destruct I as ((r0 & c0) & E & I). cbn [fst snd] in E. injection E as <- <-.
            apply resort_lambda; auto. rewrite fortran_zero'. rewrite Forall_forall in JR. apply (JR _ I).
          * rewrite map_length. cbn [Nat.add]. auto.
        + exfalso. apply NI. rewrite E. apply in_seq. lia.
      - intros e He. destruct (@sp_jac _ O minf pinf t cs xl xu gl gu deps jac hess a LX LG A) as (_ & _ & _ & JF & _). rewrite JF in He.
        destruct (option_map _ _); [|destruct He]. destruct (is_parameter _); [|destruct He]. rewrite Lg. clear - He JR.
        exact (select_fixed_cols cs (length gl) (length xl) _ _ _ JR _ He). }
    cbn [R_ops t0] in *. rewrite M.
    set (v := nth i grad 0 + jt_times uj vals lam i). destruct (split_parts v) as (S1 & S2 & S3 & S4). repeat split; auto. lra.
  - intros i Hi Ti. assert (IF : ~ In i (a_fix a)) by (intros I; apply FI in I; tauto).
    pose proof (@put_out _ O (a_fix a) i IF) as PO. cbn [R_ops t0] in PO. rewrite !PO. auto.
Qed.

(** make_constraint: they are the negative and positive part of the multiplier of
    the equality constraint standing for the fixed variable. *)
Theorem C43_make_constraint yc zl zu k :
  a_t a = MAKE_CONSTRAINT -> length zl = n -> length zu = n ->
  length yc = (length (a_c a) + length (a_fix a))%nat -> (k < length (a_fix a))%nat ->
  let z := bound_mult_constraint O a (Dense yc) (length yc) (zl, zu) in let i := nth k (a_fix a) 0%nat in
  tight O xl xu i /\ 0 <= nth i (fst z) 0 /\ 0 <= nth i (snd z) 0 /\ nth i (fst z) 0 * nth i (snd z) 0 = 0 /\
  nth i (snd z) 0 - nth i (fst z) 0 = nth (length (a_c a) + k) yc 0.
Proof.
  intros TT L1 L2 LY Hk z i.
  pose proof (@fix_in _ O minf pinf t cs xl xu gl gu deps jac hess a LX LG SD A) as FI. rewrite TT in FI.
  pose proof (@fix_pos _ O minf pinf t cs xl xu gl gu deps jac hess a LX LG SD A) as [FN FR].
  assert (IF : In i (a_fix a)) by (apply nth_In; auto).
  subst z. unfold bound_mult_constraint. cbn [fst snd vat]. cbn [R_ops t0 topp]. split; [apply FI in IF; tauto|].
  assert (GET : forall (f : nat -> R) z0, length z0 = n -> nth i (put (a_fix a) (map f (seq 0 (length (a_fix a)))) z0) 0 = f k).
  { intros f z0 Lz. subst i. pose proof (@put_in _ O (a_fix a) FN (map f (seq 0 (length (a_fix a)))) z0 k) as PI. cbn [R_ops t0] in PI. rewrite PI; auto.
    - rewrite (@nth_map' _ _ f k 0%nat) by (rewrite seq_length; auto). rewrite seq_nth; auto.
    - rewrite map_length, seq_length. reflexivity.
    - rewrite Lz. exact FR. }
  rewrite !GET by auto. rewrite !tmax_R. unfold AdModel.at_. cbn [R_ops t0].
  replace (length yc - length (a_fix a) + k)%nat with (length (a_c a) + k)%nat by lia.
  destruct (split_parts (nth (length (a_c a) + k) yc 0)) as (S1 & S2 & S3 & S4). repeat split; auto. lra.
Qed.
End Mult.

(** * Non-vacuity *)
Local Open Scope nat_scope.
(** three variables, the second fixed; an equality and an inequality with upper bound -inf..4 *)
Definition ex_xl := [nofZ 0; nofZ 2; nofZ (-10) ].
Definition ex_xu := [nofZ 1; nofZ 2; ninf ].
Definition ex_gl := [nofZ 1; nninf].
Definition ex_gu := [nofZ 1; nofZ 4].
Definition ex_inf := nofZ (10 ^ 15).
Definition ex_minf := nofZ (- 10 ^ 15).
Definition ex_jac := [(0, 0); (0, 1); (1, 1); (1, 2)].
Definition ex_hess := [(0, 0); (1, 0); (2, 2)].
Definition ex_run t := get_spaces (num_ops (fun x => x)) ex_minf ex_inf t true ex_xl ex_xu ex_gl ex_gu [] ex_jac ex_hess.
Example C26_example : ex_run MAKE_PARAMETER =
  inl (AD 3 2 MAKE_PARAMETER (Some [0; 2]) 2 [0; 1] [0] [1] [0] [1] [] [0]
          [JE 0 1 1] [] [JE 3 1 2] [JE 1 1 2; JE 2 2 2] [JE 0 1 1; JE 2 2 2]).
Proof. vm_compute. reflexivity. Qed.
Example C26_example_constraint : ex_run MAKE_CONSTRAINT =
  inl (AD 3 2 MAKE_CONSTRAINT None 3 [0; 2] [0] [1] [0] [1] [] [0]
          [JE 0 1 1; JE 1 1 2] [(2, 2)] [JE 2 1 2; JE 3 1 3] [] [JE 0 1 1; JE 1 2 1; JE 2 3 3]).
Proof. vm_compute. reflexivity. Qed.
Example C26_example_relax : ex_run RELAX_BOUNDS =
  inl (AD 3 2 RELAX_BOUNDS None 3 [0; 1; 2] [0; 1] [] [0] [1] [] [0]
          [JE 0 1 1; JE 1 1 2] [] [JE 2 1 2; JE 3 1 3] [] [JE 0 1 1; JE 1 2 1; JE 2 3 3]).
Proof. vm_compute. reflexivity. Qed.
(** two equality constraints, two variables, one of them fixed: too few degrees of freedom *)
Example C26_example_dof :
  match get_spaces (num_ops (fun x => x)) ex_minf ex_inf MAKE_PARAMETER true [nofZ 0; nofZ 1] [nofZ 2; nofZ 1] [nofZ 1; nofZ 2] [nofZ 1; nofZ 2] [] [] []
  with inl a => is_relax (a_t a) | inr _ => false end = true.
Proof. vm_compute. reflexivity. Qed.
Example C26_example_bad :
  get_spaces (num_ops (fun x => x)) ex_minf ex_inf MAKE_PARAMETER true [nofZ 0; nofZ 3] [nofZ 2; nofZ 1] [] [] [] [] [] = inr (BadVariable 1).
Proof. vm_compute. reflexivity. Qed.
(** a dependent equality constraint is taken out *)
Example C27_example_dep :
  match get_spaces (num_ops (fun x => x)) ex_minf ex_inf MAKE_PARAMETER true [nofZ 0; nofZ 0; nofZ 0] [nofZ 2; nofZ 2; nofZ 2]
      [nofZ 1; nofZ 0; nofZ 2; nofZ 3] [nofZ 1; nofZ 5; nofZ 2; nofZ 3] [1] [] []
  with inl a => (a_c a, a_d a) | inr _ => ([], []) end = ([0; 3], [1]).
Proof. vm_compute. reflexivity. Qed.
Example C28_example_range : Forall (fun e => zero_based true (fst e) < 2 /\ zero_based true (snd e) < 3) ex_jac.
Proof. repeat constructor. Qed.

Print Assumptions C26_variables.
Print Assumptions C26_feasible_set.
Print Assumptions C28_jacobian.
Print Assumptions C43_make_parameter.
