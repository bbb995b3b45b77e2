(** Proofs about the augmented system solver. *)
From Coq Require Import Reals List Arith Bool Lia Lra.
From Verif Require Import CQModel CQSpec CQVec PdModel PdSpec PdAlg AugModel AugSpec.
Import ListNotations.
Open Scope R_scope.
Local Notation "v .[ i ]" := (nth i v 0) (at level 1, format "v .[ i ]").

Section A.
Variables (nx ns nc : nat).

(** the blocks are those of the arguments *)
Definition K_for (K : kkt) (q : aarg) : Prop :=
  match g_W q with Some W => b_wf K = g_wf q /\ b_W K = W | None => b_wf K = 0 end /\
  vec_is (b_x K) nx (fun i => dv (g_Dx q) i + g_dx q) /\ vec_is (b_s K) ns (fun i => dv (g_Ds q) i + g_ds q) /\
  b_Jc K = g_Jc q /\ vec_is (b_c K) nc (fun i => dv (g_Dc q) i - g_dc q) /\
  b_Jd K = g_Jd q /\ b_f K = -1 /\ vec_is (b_d K) ns (fun i => dv (g_Dd q) i - g_dd q).

Lemma mmul1_is J x y n m g : length x = n -> mc J = n -> mr J = m -> vec_is y m g ->
  vec_is (mmul J 1 x 1 y) m (fun i => g i + Jv J x i).
Proof.
  intros L C Rr Y. unfold mmul. apply mk_is'; [exact Rr|]. intros i Hi.
  rewrite lsum_eq, (vis_el _ _ _ _ Y Hi). unfold Jv, el. ring.
Qed.
Lemma add_is n f g h : (forall i, (i < n)%nat -> g i = h i) -> vec_is (mk n (fun i => f i + g i)) n (fun i => f i + h i).
Proof. intros H. apply mk_is'; [reflexivity|]. intros i Hi. rewrite H by exact Hi. reflexivity. Qed.

Lemma kmul_is K q a : arg_ok nx ns nc q -> K_for K q -> av_ok nx ns nc a ->
  rows_are nx ns nc (kmul K a) (row_x q a) (row_s q a) (row_c q a) (row_d q a).
Proof.
  intros [HW [Jcr Jcc] [Jdr Jdc] _] (KW & KX & KS & KJc & KC & KJd & KF & KD) (L1 & L2 & L3 & L4).
  unfold kmul. rewrite (vis_len _ _ _ KX), (vis_len _ _ _ KS), (vis_len _ _ _ KC), (vis_len _ _ _ KD), KJc, KJd, KF.
  unfold rows_are. cbn [ax as_ ac ad]. splits.
  - eapply vis_ext.
    + eapply mtmul1_is; [apply vis_self; exact L4| |exact Jdc|exact Jdr].
      eapply mtmul1_is; [apply vis_self; exact L3| |exact Jcc|exact Jcr].
      apply mk_is.
    + intros i Hi. cbn beta. rewrite mk_el by exact Hi. rewrite (vis_el _ _ _ _ (vset_is nx 0) Hi), (vis_el _ _ _ _ KX Hi).
      unfold row_x, wv. destruct (g_W q) as [W|].
      * destruct KW as [-> ->]. destruct HW as [W1 W2].
        assert (MW : vec_is (mmul W 1 (ax a) 0 (vset nx 0)) nx (Jv W (ax a))).
        { unfold mmul. apply mk_is'; [exact W1|]. intros j Hj. rewrite lsum_eq. unfold Jv, el. ring. }
        rewrite (vis_el _ _ _ _ MW Hi). unfold el. unfold JTv. ring_simplify. 
        repeat (rewrite Jcr || rewrite Jdr). ring.
      * rewrite KW. unfold el, JTv. repeat (rewrite Jcr || rewrite Jdr). ring.
  - apply mk_is'; [reflexivity|]. intros i Hi. rewrite mk_el by exact Hi.
    rewrite (vis_el _ _ _ _ (vset_is ns 0) Hi), (vis_el _ _ _ _ KS Hi). unfold row_s, el. ring.
  - apply mk_is'; [reflexivity|]. intros i Hi.
    rewrite (vis_el _ _ _ i (mmul1_is _ _ _ _ _ _ L1 Jcc Jcr (vset_is nc 0)) Hi), (vis_el _ _ _ _ KC Hi). unfold row_c, el. ring.
  - apply mk_is'; [reflexivity|]. intros i Hi. rewrite mk_el by exact Hi.
    rewrite (vis_el _ _ _ i (mmul1_is _ _ _ _ _ _ L1 Jdc Jdr (vset_is ns 0)) Hi), (vis_el _ _ _ _ KD Hi). unfold row_d, el. ring.
Qed.

Lemma diag_plus D d n : olen D n -> vec_is (diag_block D d 1 n) n (fun i => dv D i + d).
Proof.
  intros H. destruct D as [v|]; cbn in *.
  - destruct (Req_EM_T d 0) as [->|].
    + apply (vis_ext _ _ _ _ (vis_self v n H)). intros. ring.
    + eapply vis_ext; [apply vmap_is, vis_self, H|]. intros. cbn. ring.
  - eapply vis_ext; [apply vset_is|]. intros. cbn. ring.
Qed.
Lemma diag_minus D d n : olen D n -> vec_is (diag_block D d (-1) n) n (fun i => dv D i - d).
Proof.
  intros H. destruct D as [v|]; cbn in *.
  - destruct (Req_EM_T d 0) as [->|].
    + apply (vis_ext _ _ _ _ (vis_self v n H)). intros. ring.
    + eapply vis_ext; [apply vmap_is, vis_self, H|]. intros. cbn. ring.
  - eapply vis_ext; [apply vset_is|]. intros. cbn. ring.
Qed.

(** what the state remembers of the call (q, t) it was created for *)
Definition knows {L} (s : sst L) (q : aarg) (t : atag) : Prop :=
  s_tags s = ATag (tag_or_0 (g_W q) (t_W t)) (tag_or_0 (g_Dx q) (t_Dx t)) (tag_or_0 (g_Ds q) (t_Ds t)) (t_Jc t)
            (tag_or_0 (g_Dc q) (t_Dc t)) (t_Jd t) (tag_or_0 (g_Dd q) (t_Dd t)) /\
  s_wf s = g_wf q /\ s_dx s = g_dx q /\ s_ds s = g_ds q /\ s_dc s = g_dc q /\ s_dd s = g_dd q.

Lemma create_for {L} q t b (s : sst L) : arg_ok nx ns nc q -> av_ok nx ns nc b ->
  exists K, s_sys (create q t b s) = Some (s_next s, K) /\ K_for K q /\ knows (create q t b s) q t.
Proof.
  intros [_ _ _ (D1 & D2 & D3 & D4)] (L1 & L2 & L3 & L4). eexists. split; [reflexivity|]. split.
  - unfold K_for. cbn. unfold dim. rewrite L1, L2, L3, L4. splits; try reflexivity; try (apply diag_plus; assumption); try (apply diag_minus; assumption).
    destruct (g_W q); [split|]; reflexivity.
  - unfold knows. cbn. splits; reflexivity.
Qed.

Lemma changed_ptr_false {A} (o1 o2 : option A) t1 t2 : (o1 <> None -> t1 <> O) -> (o2 <> None -> t2 <> O) ->
  changed_ptr o2 t2 (tag_or_0 o1 t1) = false <-> same_ptr o1 o2 t1 t2.
Proof.
  intros H1 H2. unfold changed_ptr, tag_or_0, same_ptr. destruct o1, o2; rewrite ?negb_false_iff, ?Nat.eqb_eq.
  - intuition congruence.
  - split; intros H; [|contradiction]. apply H1; [discriminate|exact H].
  - split; intros H; [|contradiction]. apply H2; [discriminate|exact H].
  - intuition congruence.
Qed.
Lemma changed_num_false a b : changed_num a b = false <-> b = a.
Proof. unfold changed_num. destruct (Req_EM_T a b); intuition congruence. Qed.

Lemma requires_iff {L} (s : sst L) k1 k2 : call_ok nx ns nc k1 -> call_ok nx ns nc k2 -> knows s (k_q k1) (k_t k1) ->
  requires_change (k_q k2) (k_t k2) s = false <-> same_args k1 k2.
Proof.
  destruct k1 as [q1 t1 b1 c1 n1], k2 as [q2 t2 b2 c2 n2]. unfold call_ok. cbn.
  intros (_ & _ & _ & A1 & A2 & A3 & A4 & A5) (_ & _ & _ & B1 & B2 & B3 & B4 & B5) (T & E1 & E2 & E3 & E4 & E5).
  unfold requires_change. rewrite T, E1, E2, E3, E4, E5. cbn [t_W t_Dx t_Ds t_Jc t_Dc t_Jd t_Dd].
  rewrite !orb_false_iff, !negb_false_iff, !Nat.eqb_eq, !changed_num_false.
  rewrite !changed_ptr_false by assumption.
  split; intros HH; decompose [and] HH; clear HH; splits; first [assumption|symmetry; assumption].
Qed.

Lemma same_ptr_slot {A} (o1 o2 : option A) t1 t2 : slot o1 o2 t1 t2 -> same_ptr o1 o2 t1 t2 -> o1 = o2.
Proof. destruct o1, o2; cbn; intros H1 H2; try reflexivity; try contradiction. apply H1; [discriminate|discriminate|exact H2]. Qed.
Lemma same_args_val k1 k2 : agree k1 k2 -> same_args k1 k2 -> k_q k1 = k_q k2.
Proof.
  destruct k1 as [q1 t1 b1 c1 n1], k2 as [q2 t2 b2 c2 n2]. cbn.
  intros (A1 & A2 & A3 & A4 & A5 & A6 & A7) (B1 & B2 & B3 & B4 & B5 & B6 & B7 & B8 & B9 & B10 & B11 & B12).
  apply same_ptr_slot in B1, B3, B5, B8, B11; try assumption. apply A4 in B7. apply A6 in B10.
  destruct q1, q2; cbn in *; congruence.
Qed.

(** the invariant: the matrix is that of the last call *)
Definition inv {L} (s : sst L) (k : call) : Prop :=
  exists T K, s_sys s = Some (T, K) /\ K_for K (k_q k) /\ knows s (k_q k) (k_t k) /\ (T < s_next s)%nat.

Lemma prepare_first {L} (s : sst L) k : call_ok nx ns nc k -> s_sys s = None ->
  inv (prepare (k_q k) (k_t k) (k_bs k) s) k /\ s_sys (prepare (k_q k) (k_t k) (k_bs k) s) = option_map (fun K => (s_next s, snd K)) (s_sys (prepare (k_q k) (k_t k) (k_bs k) s)).
Proof.
  intros H S0. pose proof H as (Aq & NE & FB & _). destruct k as [q t bs c n]; cbn [k_q k_t k_bs] in *.
  unfold prepare. rewrite S0. destruct bs as [|b bs]; [contradiction|]. cbn [nth]. pose proof (Forall_inv FB) as Ob.
  set (s1 := SSt _ _ _ _ _ _ _ _ _ _). pose proof (create_for q t b s1 Aq Ob) as (K & C1 & C2 & C3).
  assert (N : requires_change q t (create q t b s1) = false).
  { apply (requires_iff (create q t b s1) (Call q t (b :: bs) c n) (Call q t (b :: bs) c n) H H C3).
    cbn. unfold same_ptr. destruct (g_W q), (g_Dx q), (g_Ds q), (g_Dc q), (g_Dd q); cbn; splits; reflexivity. }
  rewrite N. split; [|rewrite C1; reflexivity]. exists (s_next s1), K. splits; try assumption. cbn. lia.
Qed.

Lemma prepare_next {L} (s : sst L) k1 k2 : call_ok nx ns nc k1 -> call_ok nx ns nc k2 -> agree k1 k2 -> inv s k1 ->
  inv (prepare (k_q k2) (k_t k2) (k_bs k2) s) k2 /\
  (same_args k1 k2 -> s_sys (prepare (k_q k2) (k_t k2) (k_bs k2) s) = s_sys s) /\
  (~ same_args k1 k2 -> forall T K, s_sys (prepare (k_q k2) (k_t k2) (k_bs k2) s) = Some (T, K) -> T = s_next s).
Proof.
  intros O1 O2 AG (T & K & S1 & S2 & S3 & S4). pose proof O2 as (Aq & NE & FB & _).
  unfold prepare. rewrite S1.
  pose proof (requires_iff s k1 k2 O1 O2 S3) as RI.
  destruct (requires_change (k_q k2) (k_t k2) s) eqn:RC.
  - destruct (k_bs k2) as [|b bs] eqn:EB; [contradiction|]. cbn [nth]. pose proof (Forall_inv FB) as Ob.
    destruct (create_for (k_q k2) (k_t k2) b s Aq Ob) as (K' & C1 & C2 & C3). splits.
    + exists (s_next s), K'. splits; try assumption. cbn. lia.
    + intros SA. apply RI in SA. discriminate.
    + intros _ T' K'' E. rewrite C1 in E. inversion E. reflexivity.
  - assert (SA : same_args k1 k2) by (apply RI; reflexivity). pose proof (same_args_val _ _ AG SA) as EQ. splits.
    + exists T, K. splits; try assumption; [rewrite <- EQ; exact S2|].
      destruct k1 as [q1 t1 b1 c1 n1], k2 as [q2 t2 b2 c2 n2]. cbn in *. subst q2.
      destruct S3 as (Tg & Rest). split; [|exact Rest]. rewrite Tg.
      destruct SA as (B1 & B2 & B3 & B4 & B5 & B6 & B7 & B8 & B9 & B10 & B11 & B12).
      unfold same_ptr in *. destruct (g_W q1), (g_Dx q1), (g_Ds q1), (g_Dc q1), (g_Dd q1); cbn; congruence.
    + intros _. exact S1.
    + intros NS. contradiction.
Qed.

Lemma solve_state {L} (ls : linsolver L) q t bs chk n s r xs K s' : multi_solve ls q t bs chk n s = Some (r, xs, K, s') ->
  s_sys (prepare q t bs s) = Some K /\ (exists l', ls (s_l (prepare q t bs s)) K bs chk n = (r, xs, l')) /\ s_sys s' = Some K /\
  s_tags s' = s_tags (prepare q t bs s) /\ s_wf s' = s_wf (prepare q t bs s) /\ s_dx s' = s_dx (prepare q t bs s) /\
  s_ds s' = s_ds (prepare q t bs s) /\ s_dc s' = s_dc (prepare q t bs s) /\ s_dd s' = s_dd (prepare q t bs s) /\ s_next s' = s_next (prepare q t bs s).
Proof.
  unfold multi_solve. destruct (prepare q t bs s) as [l sy ow tg a b c d e nn]. cbn. destruct sy as [K0|]; [|discriminate].
  destruct (ls l K0 bs chk n) as [[r0 xs0] l0] eqn:E. intros H. inversion H; subst. cbn. splits; try reflexivity. exists l0; exact E.
Qed.

Lemma inv_after {L} (ls : linsolver L) k s r xs K s' : multi_solve ls (k_q k) (k_t k) (k_bs k) (k_chk k) (k_n k) s = Some (r, xs, K, s') ->
  inv (prepare (k_q k) (k_t k) (k_bs k) s) k -> inv s' k.
Proof.
  intros M (T & K0 & S1 & S2 & S3 & S4). apply solve_state in M. destruct M as (M1 & _ & M2 & M3 & M4 & M5 & M6 & M7 & M8 & M9).
  exists T, K0. rewrite M2, M9, <- M1. splits; try assumption.
  unfold knows in *. rewrite M3, M4, M5, M6, M7, M8. exact S3.
Qed.

Lemma history_inv {L} (ls : linsolver L) ks s : history ls ks s -> history_ok nx ns nc ks ->
  match ks with [] => s_sys s = None | _ => exists ks' k, ks = ks' ++ [k] /\ inv s k end.
Proof.
  induction 1 as [s S0|ks k s r xs K s' H IH M]; intros (Hc & Ha & Hw); [exact S0|].
  destruct (ks ++ [k]) eqn:E; [destruct ks; discriminate|]. rewrite <- E in *. exists ks, k. split; [reflexivity|].
  apply (inv_after ls k s r xs K s' M).
  apply Forall_app in Hc as [Hc1 Hc2]. pose proof (Forall_inv Hc2) as Ck.
  assert (OK : history_ok nx ns nc ks).
  { unfold history_ok. splits; [exact Hc1|intros k1 k2 I1 I2; apply Ha; apply in_or_app; left; assumption|].
    intros k0 ks0 ->. apply (Hw k0 (ks0 ++ [k])). reflexivity. }
  specialize (IH OK). destruct ks as [|k0 ks0].
  - apply (prepare_first s k Ck IH).
  - destruct IH as (ks' & k1 & E1 & I1). rewrite E1 in Hc1, Ha. apply Forall_app in Hc1 as [_ C1]. apply Forall_inv in C1.
    apply (prepare_next s k1 k C1 Ck); [|exact I1].
    apply Ha; apply in_or_app; [left; apply in_or_app; right; left; reflexivity|right; left; reflexivity].
Qed.
End A.
