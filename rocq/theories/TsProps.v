(** C84: solutions; C85: protocol with the sparse solver; C86: slack based scaling; C87: with MA27. *)
From Coq Require Import Reals List Arith Bool Lia Lra Permutation Sorted.
From Verif Require CsrModel.
From Verif Require Import CsrSpec CsrProps.
From Verif Require Import PdModel TsModel TsSpec TsProofs Ma27Model Ma27Proofs.
Import ListNotations.
Open Scope R_scope.

Section Main.
Context {W : Type}.
Variables (E : env W) (f : fmt) (usable : status -> bool) (scaling : bool) (sort : list CsrModel.entry -> list CsrModel.entry).
Variables (Allowed Str : nat -> nat -> CsrModel.arr -> CsrModel.arr -> W -> Prop) (Idle : W -> Prop) (Fresh : W -> bool -> Prop) (Uses : W -> bool -> list R -> Prop).

(** C84: whatever was done with the object before, for every triplet matrix, format, scaling method and list of right hand sides:
    nothing is undefined, and if SYMSOLVER_SUCCESS is returned, every vector solves the system of the given matrix. *)
Theorem C84_solutions_exact :
  backend E f usable Allowed Str Idle Fresh Uses -> (forall l, std_sorted l (sort l)) ->
  forall v s fuel A rhsV chk n, hist E f usable scaling sort v s -> may_solve f v A rhsV ->
  exists r s', multi_solve E scaling sort fuel A rhsV chk n s = Some (r, s') /\
    (forall sols, r = Ret SUCCESS sols -> Forall2 (fun x b => solves (m_dim A) (matrix A) x b) sols rhsV).
Proof.
  intros B Hs v s fuel A rhsV chk n H M.
  destruct (solve_ok E f usable scaling sort Allowed Str Idle Fresh Uses B Hs v s fuel A rhsV chk n) as (r & s' & Q1 & _ & Q2 & _); auto.
  { eapply hist_inv; eauto. }
  exists r, s'. auto.
Qed.

(** C85: the calls the sparse solver receives in any history obey its protocol. *)
Theorem C85_protocol :
  backend E f usable Allowed Str Idle Fresh Uses -> (forall l, std_sorted l (sort l)) ->
  forall v s, hist E f usable scaling sort v s -> protocol usable (s_ev s).
Proof. intros B Hs v s H. eapply (hist_inv E f usable scaling sort); eauto. Qed.

(** A factorization is asked for exactly if the matrix is another one than the last time or scaling has been switched on since. *)
Theorem C85_refactorization_exactly_when_needed :
  backend E f usable Allowed Str Idle Fresh Uses -> (forall l, std_sorted l (sort l)) ->
  forall v s fuel A rhsV chk n r s', hist E f usable scaling sort v s -> may_solve f v A rhsV ->
  multi_solve E scaling sort fuel A rhsV chk n s = Some (r, s') ->
  exists es, s_ev s' = es ++ s_ev s /\
    (forall new ia ja q, In (E_solve new ia ja q) es ->
       (new = false <-> (exists C, v_last v = Some C /\ m_tag A = m_tag C) /\ v_pend v = false)) /\
    (s_init s = true -> forall d nz ia ja q, ~ In (E_struct d nz ia ja q) es).
Proof.
  intros B Hs v s fuel A rhsV chk n r s' H M Q.
  destruct (solve_ok E f usable scaling sort Allowed Str Idle Fresh Uses B Hs v s fuel A rhsV chk n) as (r0 & s0 & Q1 & _ & _ & es & Q2 & Q3 & Q4); auto.
  { eapply hist_inv; eauto. }
  rewrite Q1 in Q. injection Q as <- <-. exists es. split; auto. split; auto.
  intros new ia ja q I0. rewrite (Q3 _ _ _ _ I0). unfold same_tag. destruct (v_last v) as [C|].
  - destruct (Nat.eqb_spec (m_tag A) (m_tag C)) as [Et|Et]; destruct (v_pend v); cbn; split; try discriminate; auto.
    + intros [_ X]. discriminate.
    + intros _. split; auto. exists C. auto.
    + intros [(C' & EC & ET) _]. congruence.
    + intros [(C' & EC & ET) _]. congruence.
  - cbn. split; [discriminate|]. intros [(C & EC & _) _]. discriminate.
Qed.
End Main.

(** ** C87: with the MA27 object behind it, and the Fortran routines doing what they document *)
Section Ma.
Context {S F : Type}.
Variables (K : kernel S F) (mem : nat -> nat -> nat -> nat) (ub : ma27 S F -> status * ma27 S F) (piv0 pivmax : R) (skip : bool).
Variables (scaling scinit : bool) (sc : nat -> list nat -> list nat -> list R -> bool * list R) (sort : list CsrModel.entry -> list CsrModel.entry).
Notation E := (ma27_env K mem ub piv0 pivmax skip false scinit sc).
Notation only_success := (fun r => match r with SUCCESS => true | _ => false end).

(** [ub] is arbitrary: no history makes MA27 work on an array shorter than the size it is told, or writes values outside of it. *)
Theorem C87_ma27_solutions_exact :
  kernel_ok K -> mem_ok mem -> (forall l, std_sorted l (sort l)) ->
  (forall d ir jc v, fst (sc d ir jc v) = true -> length (snd (sc d ir jc v)) = d /\ Forall (fun x => x <> 0) (snd (sc d ir jc v))) ->
  forall v s fuel A rhsV chk n, hist E TripF only_success scaling sort v s -> may_solve TripF v A rhsV ->
  exists r s', multi_solve E scaling sort fuel A rhsV chk n s = Some (r, s') /\
    (forall sols, r = Ret SUCCESS sols -> Forall2 (fun x b => solves (m_dim A) (matrix A) x b) sols rhsV).
Proof.
  intros HK HM Hs Hsc v s fuel A rhsV chk n H M.
  eapply (C84_solutions_exact E TripF usable1 scaling sort); eauto. apply (ma27_backend K mem ub piv0 pivmax skip HK HM scinit sc Hsc).
Qed.
Theorem C87_ma27_protocol :
  kernel_ok K -> mem_ok mem -> (forall l, std_sorted l (sort l)) ->
  (forall d ir jc v, fst (sc d ir jc v) = true -> length (snd (sc d ir jc v)) = d /\ Forall (fun x => x <> 0) (snd (sc d ir jc v))) ->
  forall v s, hist E TripF only_success scaling sort v s -> protocol only_success (s_ev s).
Proof.
  intros HK HM Hs Hsc v s H.
  eapply (C85_protocol E TripF usable1 scaling sort); eauto. apply (ma27_backend K mem ub piv0 pivmax skip HK HM scinit sc Hsc).
Qed.
End Ma.

(** ** C86: the slack based scaling factors *)
(** a slack variable with at least one bound has a positive slack there, none twice in a list *)
Definition slacks_ok (ns : nat) (pL pU : list nat) (sL sU : list R) : Prop :=
  length pL = length sL /\ length pU = length sU /\ Forall (fun x => 0 < x) sL /\ Forall (fun x => 0 < x) sU /\
  forall i, (i < ns)%nat -> In i pL \/ In i pU.
Definition slack_at (p : list nat) (v : list R) (i : nat) : R := fold_right Rplus 0 (map (fun t => if (fst t =? i)%nat then snd t else 0) (combine p v)).
Lemma slack_at_nonneg p : forall v i, Forall (fun x => 0 < x) v -> 0 <= slack_at p v i.
Proof.
  unfold slack_at. induction p as [|a p IH]; intros [|x v] i H; cbn; try lra. inversion H; subst. specialize (IH v i H3). destruct (a =? i)%nat; lra.
Qed.
Lemma slack_at_pos p : forall v i, length p = length v -> Forall (fun x => 0 < x) v -> In i p -> 0 < slack_at p v i.
Proof.
  unfold slack_at. induction p as [|a p IH]; intros [|x v] i L H HI; try discriminate L; [destruct HI|]. inversion H; subst. cbn.
  pose proof (slack_at_nonneg p v i H3) as N. unfold slack_at in N. destruct HI as [->|HI].
  - rewrite Nat.eqb_refl. lra.
  - specialize (IH v i ltac:(cbn in L; lia) H3 HI). destruct (a =? i)%nat; lra.
Qed.
Theorem C86_slack_factors : forall nx ns nc nd pL pU sL sU, slacks_ok ns pL pU sL sU ->
  length (slack_factors nx ns nc nd pL pU sL sU) = (nx + ns + nc + nd)%nat /\
  Forall (fun x => 0 < x <= 1) (slack_factors nx ns nc nd pL pU sL sU) /\
  (forall i, (i < nx)%nat \/ (nx + ns <= i < nx + ns + nc + nd)%nat -> nth i (slack_factors nx ns nc nd pL pU sL sU) 0 = 1) /\
  (forall i, (i < ns)%nat -> nth (nx + i) (slack_factors nx ns nc nd pL pU sL sU) 0 = Rmin (slack_at pL sL i + slack_at pU sU i) 1).
Proof.
  intros nx ns nc nd pL pU sL sU (L1 & L2 & P1 & P2 & HB).
  assert (LEN : length (slack_factors nx ns nc nd pL pU sL sU) = (nx + ns + nc + nd)%nat).
  { unfold slack_factors. rewrite !app_length, map_length, seq_length, !repeat_length. lia. }
  split; auto. split; [|split].
  - unfold slack_factors. apply Forall_app. split; [|apply Forall_app; split].
    + apply Forall_forall. intros x Hx. apply repeat_spec in Hx. lra.
    + apply Forall_map, Forall_forall. intros i Hi. apply in_seq in Hi. fold (slack_at pL sL i). fold (slack_at pU sU i).
      pose proof (slack_at_nonneg pL sL i P1). pose proof (slack_at_nonneg pU sU i P2).
      assert (0 < slack_at pL sL i + slack_at pU sU i).
      { destruct (HB i ltac:(lia)) as [H1|H1]; [pose proof (slack_at_pos pL sL i L1 P1 H1)|pose proof (slack_at_pos pU sU i L2 P2 H1)]; lra. }
      split; [apply Rmin_glb_lt; lra|apply Rmin_r].
    + apply Forall_forall. intros x Hx. apply repeat_spec in Hx. lra.
  - intros i Hi. unfold slack_factors. destruct Hi as [Hi|Hi].
    + rewrite app_nth1 by (rewrite repeat_length; lia). rewrite (nth_indep _ 0 1) by (rewrite repeat_length; lia). apply nth_repeat.
    + rewrite app_nth2 by (rewrite repeat_length; lia). rewrite repeat_length.
      rewrite app_nth2 by (rewrite map_length, seq_length; lia). rewrite map_length, seq_length.
      rewrite (nth_indep _ 0 1) by (rewrite repeat_length; lia). apply nth_repeat.
  - intros i Hi. unfold slack_factors. rewrite app_nth2 by (rewrite repeat_length; lia). rewrite repeat_length.
    replace (nx + i - nx)%nat with i by lia. rewrite app_nth1 by (rewrite map_length, seq_length; lia).
    set (g := fun i => Rmin (fold_right Rplus 0 (map (fun t => if (fst t =? i)%nat then snd t else 0) (combine pL sL)) +
                            fold_right Rplus 0 (map (fun t => if (fst t =? i)%nat then snd t else 0) (combine pU sU))) 1).
    rewrite (nth_indep _ 0 (g 0%nat)) by (rewrite map_length, seq_length; lia).
    rewrite (map_nth g), seq_nth by auto. reflexivity.
Qed.
(** An inequality constraint without any bound gets the factor zero: the scaled system is singular whatever the matrix. *)
Theorem C86_free_slack_refuted : ~ (forall nx ns nc nd pL pU sL sU,
  length pL = length sL -> length pU = length sU -> Forall (fun x => 0 < x) sL -> Forall (fun x => 0 < x) sU ->
  Forall (fun x => 0 < x) (slack_factors nx ns nc nd pL pU sL sU)).
Proof.
  intros H. specialize (H 0%nat 1%nat 0%nat 0%nat [] [] [] [] eq_refl eq_refl (Forall_nil _) (Forall_nil _)). cbn in H. inversion H; subst.
  rewrite Rmin_left in H2; lra.
Qed.
Example C86_nonvacuous : slacks_ok 2 [0%nat] [0%nat; 1%nat] [1/2] [1/3; 5].
Proof.
  repeat split; auto; try (repeat constructor; lra). intros [|[|i]] Hi; cbn; auto; lia.
Qed.

(** ** An instance: MA27 for matrices of dimension one *)
Definition unarr (a : CsrModel.arr) : list nat := map (fun x => match x with Some i => i | None => 0%nat end) a.
Lemma unarr_Some l : unarr (map Some l) = l.
Proof. unfold unarr. rewrite map_map. apply map_id. Qed.
Definition toy (ncmp : nat) : kernel unit R :=
  Kernel unit R (fun d nz _ _ => if (d =? 1)%nat then Some (tt, (nz + 1)%nat, nz) else None)
    (fun _ ia ja _ _ _ v => let a := tmat (unarr ia) (unarr ja) v 1 1 in
       (Info (if Req_EM_T a 0 then F_sing else F_ok) ncmp 0 0, a))
    (fun x b => map (fun y => y / x) b) (fun x => [x]).
Definition toymem (l b m : nat) : nat := (b + m)%nat.
Lemma toy_ok ncmp : kernel_ok (toy ncmp).
Proof.
  split.
  - intros d nz ia ja sy r1 r2 piv la liw v inf x. cbn [k_a k_b k_c toy]. destruct (Nat.eqb_spec d 1) as [->|]; [|discriminate]. intros _ Q. injection Q as <- <-. cbn [i_flag].
    set (a := tmat (unarr ia) (unarr ja) v 1 1). destruct (Req_EM_T a 0) as [|N]; [discriminate|]. intros _ b Lb.
    split; [rewrite map_length; auto|]. intros M (ir & jc & -> & -> & L1 & L2 & HM).
    split; [rewrite map_length; auto|]. intros i Hi. assert (i = 1%nat) as -> by lia.
    destruct b as [|y [|]]; try discriminate Lb. cbn [sum1 map el nth Nat.sub]. unfold el. cbn [nth Nat.sub].
    rewrite HM by lia. subst a. rewrite !unarr_Some in *. field. exact N.
  - intros d nz ia ja sy r1 r2 piv la liw v inf x. cbn [k_a k_b toy]. destruct (d =? 1)%nat; [|discriminate]. intros _ Q. injection Q as <- <-. cbn [i_flag].
    intros m. destruct (Req_EM_T _ 0); discriminate.
Qed.
Lemma toymem_ok : mem_ok toymem.
Proof. intros l b m. unfold toymem. lia. Qed.

Section Toy.
Variables (ncmp : nat) (ub : ma27 unit R -> status * ma27 unit R) (scaling : bool) (sc : nat -> list nat -> list nat -> list R -> bool * list R)
  (sort : list CsrModel.entry -> list CsrModel.entry).
Notation E := (ma27_env (toy ncmp) toymem ub 0 1 false false true sc).
(* the 1x1 matrix (a) with a tag *)
Definition one (t : nat) (a : R) : smat := SMat t 1 [1%nat] [1%nat] [a].
Lemma one_wf t a : t <> 0%nat -> wf_smat TripF (one t a).
Proof. intros H. split; [exact H|]. split; [reflexivity|]. split; [|exact I]. split; [reflexivity|]. split; repeat constructor. Qed.
Definition s1 : ts (ma27 unit R) := snd (initialize E scaling false false (new_ts new_ma27)).
Lemma hist1 us : hist E TripF us scaling sort (after_init scaling false false (Some true) (View false None false false false)) s1.
Proof.
  apply (H_init E TripF us scaling sort (View false None false false false) (new_ts new_ma27) false false (Some true)); [constructor|discriminate|].
  unfold s1, initialize. destruct scaling; reflexivity.
Qed.
End Toy.
Section Toy2.
Variables (ub : ma27 unit R -> status * ma27 unit R) (sc : nat -> list nat -> list nat -> list R -> bool * list R)
  (sort : list CsrModel.entry -> list CsrModel.entry).
Notation E := (ma27_env (toy 0) toymem ub 0 1 false false true sc).
(* the first solve *)
Lemma toy_first a b : a + 0 <> 0 -> option_map fst (multi_solve E false sort 1 (one 1 a) [[b]] false 0 (s1 0 ub false sc)) =
  Some (Ret SUCCESS [[b / (a + 0)]]).
Proof.
  intros H. unfold s1. cbv -[Rplus Rmult Rdiv Req_EM_T IZR Rpower Rmin].
  destruct (Req_EM_T (a + 0) 0); [contradiction|]. reflexivity.
Qed.
End Toy2.
(** The hypotheses of C84, C85 and C87 are met, and a solve succeeds. *)
Example C87_nonvacuous : forall ub sc sort a b, a + 0 <> 0 -> exists v s,
  hist (ma27_env (toy 0) toymem ub 0 1 false false true sc) TripF usable1 false sort v s /\ may_solve TripF v (one 1 a) [[b]] /\
  option_map fst (multi_solve (ma27_env (toy 0) toymem ub 0 1 false false true sc) false sort 1 (one 1 a) [[b]] false 0 s) = Some (Ret SUCCESS [[b / (a + 0)]]).
Proof.
  intros ub sc sort a b H. eexists. exists (s1 0 ub false sc). split; [apply hist1|]. split; [|apply toy_first; auto].
  split; [reflexivity|]. split; [apply one_wf; discriminate|]. split; [repeat constructor|exact I].
Qed.

(** ** Where it ends *)
Lemma opt_snd {A B} (o : option (A * B)) r d : option_map fst o = Some r -> o = Some (r, match o with Some (_, s) => s | None => d end).
Proof. destruct o as [[a b]|]; cbn; congruence. Qed.
(** A singular matrix that is given a second time is not factorized again: the solver backsolves with what the failed factorization left,
    and the answer is SYMSOLVER_SUCCESS. The condition [v_good] of [may_solve] cannot be dropped. *)
Definition may_solve_again (f : fmt) (v : view) (A : smat) (rhsV : list (list R)) : Prop :=
  v_on v = true /\ wf_smat f A /\ Forall (fun b => length b = m_dim A) rhsV /\
  match v_last v with None => True | Some B => same_struct A B /\ (m_tag A = m_tag B -> A = B) end.
Definition sing_kernel : kernel unit unit :=
  Kernel unit unit (fun d nz _ _ => if (d =? 1)%nat then Some (tt, (nz + 1)%nat, nz) else None)
    (fun _ _ _ _ _ _ _ => (Info F_sing 0 0 0, tt)) (fun _ b => map (fun _ => 0) b) (fun _ => []).
Section Sing.
Variables (ub : ma27 unit unit -> status * ma27 unit unit) (sc : nat -> list nat -> list nat -> list R -> bool * list R)
  (sort : list CsrModel.entry -> list CsrModel.entry).
Notation E := (ma27_env sing_kernel toymem ub 0 1 false false true sc).
Definition t1 : ts (ma27 unit unit) := snd (initialize E false false false (new_ts new_ma27)).
Definition t2 : ts (ma27 unit unit) := match multi_solve E false sort 1 (one 1 1) [[1]] false 0 t1 with Some (_, s) => s | None => t1 end.
Lemma sing_1 : option_map fst (multi_solve E false sort 1 (one 1 1) [[1]] false 0 t1) = Some (Ret SINGULAR []).
Proof. cbv -[Rplus Rmult Rdiv IZR Rpower Rmin]. reflexivity. Qed.
Lemma sing_2 : option_map fst (multi_solve E false sort 1 (one 1 1) [[1]] false 0 t2) = Some (Ret SUCCESS [[0]]).
Proof. cbv -[Rplus Rmult Rdiv IZR Rpower Rmin]. reflexivity. Qed.
Lemma sing_hist : hist E TripF usable1 false sort (View true (Some (one 1 1)) false false false) t2.
Proof.
  apply (H_solve E TripF usable1 false sort (View true None false false false) t1 1 (one 1 1) [[1]] false 0 (Ret SINGULAR [])).
  - apply (H_init E TripF usable1 false sort (View false None false false false) (new_ts new_ma27) false false (Some true)); [constructor|discriminate|reflexivity].
  - split; [reflexivity|]. split; [apply one_wf; discriminate|]. split; [repeat constructor|exact I].
  - apply opt_snd. exact sing_1.
Qed.
Lemma sing_both : exists s s', hist E TripF usable1 false sort (View true (Some (one 1 1)) false false false) s /\
  multi_solve E false sort 1 (one 1 1) [[1]] false 0 s = Some (Ret SUCCESS [[0]], s').
Proof. exists t2. eexists. split; [exact sing_hist|]. apply (opt_snd _ _ t2). exact sing_2. Qed.
End Sing.
Lemma one_not_solved : ~ solves (m_dim (one 1 1)) (matrix (one 1 1)) [0] [1].
Proof.
  intros [_ HS]. specialize (HS 1%nat (conj (le_n 1) (le_n 1))). revert HS.
  unfold matrix, el. cbn [one m_dim m_ir m_jc m_val tmat sum1 at_pos Nat.eqb andb orb nth Nat.sub]. lra.
Qed.
Theorem C84_singular_matrix_again_refuted :
  ~ (forall (K : kernel unit unit) mem ub sc sort v s A rhsV sols s', kernel_ok K -> mem_ok mem ->
      hist (ma27_env K mem ub 0 1 false false true sc) TripF usable1 false sort v s -> may_solve_again TripF v A rhsV ->
      multi_solve (ma27_env K mem ub 0 1 false false true sc) false sort 1 A rhsV false 0 s = Some (Ret SUCCESS sols, s') ->
      Forall2 (fun x b => solves (m_dim A) (matrix A) x b) sols rhsV).
Proof.
  intros H.
  set (ub := fun w : ma27 unit unit => (FATAL_ERROR, w)). set (sc := fun (_ : nat) (_ _ : list nat) (_ : list R) => (true, @nil R)).
  set (sort := fun l : list CsrModel.entry => l).
  assert (KO : kernel_ok sing_kernel).
  { split.
    - intros d nz ia ja sy r1 r2 piv la liw v inf x _ Q. injection Q as <- <-. discriminate.
    - intros d nz ia ja sy r1 r2 piv la liw v inf x _ Q. injection Q as <- <-. discriminate. }
  assert (M : may_solve_again TripF (View true (Some (one 1 1)) false false false) (one 1 1) [[1]]).
  { split; [reflexivity|]. split; [apply one_wf; discriminate|]. split; [repeat constructor|]. split; [repeat split|auto]. }
  destruct (sing_both ub sc sort) as (s & s' & HI & MS).
  pose proof (H sing_kernel toymem ub sc sort _ s (one 1 1) [[1]] [[0]] s' KO toymem_ok HI M MS) as F2.
  apply one_not_solved. inversion F2; assumption.
Qed.

(** Values that are written but never factorized (the scaling method throws) followed by a warm start: if MA27 had asked for a larger
    work space, the array has been replaced by a short one, and the factorization works behind its end. This is why a warm Initialize
    may not follow an exception. *)
Theorem C87_warm_start_after_exception_refuted :
  forall S F (K : kernel S F) mem ub piv0 skip d nz ia ja v v' nrhs rhs chk n w,
  mStr K d nz ia ja w -> a_lainc w = true -> (0 < d)%nat -> (0 < nz < a_la w)%nat -> length v = nz -> length v' = nz ->
  let w1 := ma_put ub v w in                              (* values, then the exception *)
  let w2 := snd (ma_init piv0 true w1) in                 (* warm start *)
  let w3 := snd (ma_struct K mem d nz ia ja w2) in
  let w4 := ma_put ub v' w3 in
  (a_len w4 < a_la w4)%nat /\ a_cont w4 = Vals v' /\
  ma_solve K mem ub skip false true ia ja nrhs rhs chk n w4 =
    (let (r, w5) := ub w4 in match r with
      | SUCCESS => let w6 := set_flags w5 (a_pivch w5) false in (SUCCESS, ma_backsolve K nrhs rhs w6, w6)
      | _ => (r, rhs, w5) end).
Proof.
  intros S F K mem ub piv0 skip d nz ia ja v v' nrhs rhs chk n w (D & N & (sy & r1 & r2 & SO & _) & _) Hl Hd [Hz Hla] L L'.
  assert (W1 : ma_put ub v w = set_a (set_a w Junk nz) (Vals v) nz).
  { unfold ma_put, ma_get_array. rewrite Hl, N. cbn [set_a a_len]. rewrite L, Nat.ltb_irrefl. reflexivity. }
  rewrite W1. cbn zeta. unfold ma_init. cbn [negb snd set_a a_cont a_len a_la a_liw a_dim a_nz a_sym a_neg]. unfold ma_struct.
  cbn [a_warm negb a_dim a_nz a_cont a_len a_la a_liw a_sym a_init a_pivch a_refac a_lainc a_liwinc a_piv a_neg].
  rewrite D, N, !Nat.eqb_refl. cbn [andb snd].
  unfold ma_put, ma_get_array. cbn [a_lainc a_len]. rewrite L', Nat.ltb_irrefl.
  split; [exact Hla|]. split; [reflexivity|].
  unfold ma_solve. cbn [set_a a_pivch a_refac orb]. unfold ma_factorize.
  cbn [a_lainc a_la a_len a_cont a_sym a_liwinc a_liw a_piv a_neg a_warm a_dim a_nz a_init a_pivch a_refac set_a]. rewrite SO.
  rewrite (proj2 (Nat.ltb_lt nz (a_la w)) Hla). reflexivity.
Qed.

(** IncreaseQuality of the MA27 interface: it says false exactly if the tolerance is the largest one; otherwise the tolerance grows, up to the
    largest one, and the next solve factorizes again with the new tolerance: directly for a new matrix, and else it first asks for the values. *)
Theorem C87_increase_quality : forall S F (K : kernel S F) mem ub pivmax skip isg w b w', ma_incq pivmax w = (b, w') ->
  (b = false <-> a_piv w = pivmax) /\
  (b = true -> 0 < a_piv w < 1 -> a_piv w < pivmax -> a_piv w < a_piv w' <= pivmax) /\
  (b = true -> forall ia ja nrhs rhs chk n,
     ma_solve K mem ub skip isg false ia ja nrhs rhs chk n w' = (CALL_AGAIN, rhs, set_flags w' false true) /\
     forall v, a_piv (ma_put ub v (set_flags w' false true)) = a_piv w' \/ exists u, ma_put ub v (set_flags w' false true) = snd (ub u)) /\
  (forall ia ja nrhs rhs chk n w2 new, a_pivch w2 = false -> a_refac w2 = true ->
     exists w3, ma_solve K mem ub skip isg new ia ja nrhs rhs chk n w2 = (let (r, w4) := ma_factorize K mem ub skip isg ia ja chk n w2 in
       match r with SUCCESS => (SUCCESS, ma_backsolve K nrhs rhs w3, w3) | _ => (r, rhs, w4) end)).
Proof.
  intros S F K mem ub pivmax skip isg w b w' Q. unfold ma_incq in Q. destruct (Req_EM_T (a_piv w) pivmax) as [E|NE]; injection Q as <- <-.
  - split; [tauto|]. split; [discriminate|]. split; [discriminate|]. intros ia ja nrhs rhs chk n w2 new P R. unfold ma_solve. rewrite P, R, Bool.orb_true_r.
    destruct (ma_factorize K mem ub skip isg ia ja chk n w2) as [r w4]. exists (set_flags w4 (a_pivch w4) false). destruct r; reflexivity.
  - split; [split; [discriminate|contradiction]|]. split; [|split].
    + intros _ [H0 H1] HM. cbn [a_piv]. split; [|apply Rmin_l]. apply Rmin_glb_lt; auto.
      rewrite <- (Rpower_1 (a_piv w)) at 1 by auto. unfold Rpower. apply exp_increasing.
      assert (ln (a_piv w) < 0) by (rewrite <- ln_1; apply ln_increasing; lra). lra.
    + intros _ ia ja nrhs rhs chk n. split; [reflexivity|]. intros v. unfold ma_put, ma_get_array. 
      destruct (a_lainc _); match goal with |- context [if ?c then snd (ub ?u) else _] => destruct c; [right; exists u; reflexivity|left; reflexivity] end.
    + intros ia ja nrhs rhs chk n w2 new P R. unfold ma_solve. rewrite P, R, Bool.orb_true_r.
      destruct (ma_factorize K mem ub skip isg ia ja chk n w2) as [r w4]. exists (set_flags w4 (a_pivch w4) false). destruct r; reflexivity.
Qed.

Print Assumptions C84_solutions_exact.
Print Assumptions C85_protocol.
Print Assumptions C85_refactorization_exactly_when_needed.
Print Assumptions C86_slack_factors.
Print Assumptions C87_ma27_solutions_exact.
Print Assumptions C84_singular_matrix_again_refuted.
Print Assumptions C87_ma27_protocol.
Print Assumptions C87_warm_start_after_exception_refuted.
