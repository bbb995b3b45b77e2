(** Proofs about the model of TSymLinearSolver. *)
From Coq Require Import Reals List Arith Bool Permutation Sorted Lia Lra.
From Verif Require CsrModel.
From Verif Require Import CsrSpec CsrProps.
From Verif Require Import PdModel TsModel TsSpec.
Import ListNotations.
Open Scope R_scope.

(** * Linear algebra *)
Lemma sum1_ext n g h : (forall j, (1 <= j <= n)%nat -> g j = h j) -> sum1 n g = sum1 n h.
Proof. induction n as [|n IH]; intros H; cbn; auto. rewrite IH, H; auto; try lia. intros; apply H; lia. Qed.
Lemma sum1_scal n c g : sum1 n (fun j => c * g j) = c * sum1 n g.
Proof. induction n as [|n IH]; cbn; [ring|]. rewrite IH. ring. Qed.

Lemma el_scale f b i : length f = length b -> el (scale_with f b) i = el b i * el f i.
Proof.
  unfold el, scale_with. generalize (i - 1)%nat as k. clear i. revert f.
  induction b as [|x b IH]; intros [|y f] k L; try discriminate L; cbn.
  - destruct k; ring.
  - destruct k; [reflexivity|]. apply IH. cbn in L. lia.
Qed.
Lemma scale_length f b : length f = length b -> length (scale_with f b) = length b.
Proof. intros L. unfold scale_with. rewrite map_length, combine_length. lia. Qed.

Definition mscale (fac : list R) (M : nat -> nat -> R) (i j : nat) : R := el fac i * el fac j * M i j.
Lemma solves_scaled d M fac y b : length fac = d -> Forall (fun x => x <> 0) fac -> length b = d ->
  solves d (mscale fac M) y (scale_with fac b) -> solves d M (scale_with fac y) b.
Proof.
  intros Lf Hf Lb [Ly H]. split.
  - rewrite scale_length; congruence.
  - intros i Hi. specialize (H i Hi). rewrite el_scale in H by congruence.
    assert (Nz : el fac i <> 0).
    { unfold el. rewrite Forall_forall in Hf. apply Hf. apply nth_In. lia. }
    apply (Rmult_eq_reg_l (el fac i)); auto. rewrite (Rmult_comm (el fac i) (el b i)), <- H, <- sum1_scal.
    apply sum1_ext. intros j Hj. rewrite el_scale by congruence. unfold mscale. ring.
Qed.
Lemma solves_ext d M N x b : (forall i j, (1 <= i <= d)%nat -> (1 <= j <= d)%nat -> M i j = N i j) -> solves d M x b -> solves d N x b.
Proof. intros H [L S]. split; auto. intros i Hi. rewrite <- (S i Hi). apply sum1_ext. intros j Hj. rewrite H; auto. Qed.

Lemma at_pos_sym r c i j : at_pos r c i j = at_pos r c j i.
Proof. unfold at_pos. apply orb_comm. Qed.
Lemma tmat_sym ir : forall jc v i j, tmat ir jc v i j = tmat ir jc v j i.
Proof. induction ir as [|r ir IH]; intros [|c jc] [|x v] i j; cbn; auto. rewrite at_pos_sym, IH. reflexivity. Qed.

Definition sc_vals (fac : list R) (ir jc : list nat) (at0 : list R) : list R :=
  map (fun t => snd t * (nth (fst (fst t) - 1) fac 0 * nth (snd (fst t) - 1) fac 0)) (combine (combine ir jc) at0).
Lemma tmat_scaled fac ir : forall jc v i j, tmat ir jc (sc_vals fac ir jc v) i j = mscale fac (tmat ir jc v) i j.
Proof.
  unfold mscale. induction ir as [|r ir IH]; intros [|c jc] [|x v] i j; cbn; try ring.
  unfold sc_vals in IH. rewrite IH.
  destruct (at_pos r c i j) eqn:Ep; [|ring].
  unfold at_pos in Ep. apply orb_prop in Ep. destruct Ep as [Ep|Ep]; apply andb_prop in Ep; destruct Ep as [E1 E2];
    apply Nat.eqb_eq in E1, E2; subst; unfold el; ring.
Qed.
Lemma sc_length fac ir jc v : length jc = length ir -> length v = length ir -> length (sc_vals fac ir jc v) = length ir.
Proof. intros A B. unfold sc_vals. rewrite map_length, !combine_length. lia. Qed.

(** * Slices *)
Lemma slice_concat d : forall (l : list (list R)) k, Forall (fun b => length b = d) l -> (k < length l)%nat ->
  slice d k (concat l) = nth k l [].
Proof.
  unfold slice. induction l as [|b l IH]; intros k F Hk; [cbn in Hk; lia|]. inversion F; subst. cbn [concat].
  destruct k as [|k].
  - cbn [Nat.mul skipn nth]. rewrite firstn_app, firstn_all, Nat.sub_diag. cbn. rewrite app_nil_r. reflexivity.
  - cbn [nth]. rewrite <- (IH k H2) by (cbn in Hk; lia). f_equal.
    rewrite skipn_app. replace (Datatypes.S k * length b - length b)%nat with (k * length b)%nat by (cbn; lia).
    rewrite skipn_all2 by (cbn; lia). reflexivity.
Qed.
Lemma concat_len d (l : list (list R)) : Forall (fun b => length b = d) l -> length (concat l) = (length l * d)%nat.
Proof. induction 1; cbn; auto. rewrite app_length, IHForall. lia. Qed.

(** * The compressed format represents the sum *)
Lemma fold_left_plus l : forall a, fold_left Rplus l a = a + fold_right Rplus 0 l.
Proof. induction l as [|x l IH]; intros a; cbn; [ring|]. rewrite IH. ring. Qed.

(* the positions of (i,j) in the triplets *)
Fixpoint poslist (k : nat) (ir jc : list nat) (i j : nat) : list nat :=
  match ir, jc with
  | r :: ir, c :: jc => (if at_pos r c i j then [k] else []) ++ poslist (Datatypes.S k) ir jc i j
  | _, _ => []
  end.
Lemma poslist_ge ir : forall k jc i j x, In x (poslist k ir jc i j) -> (k <= x)%nat.
Proof.
  induction ir as [|r ir IH]; intros k [|c jc] i j x H; cbn in H; try destruct H.
  apply in_app_iff in H. destruct H as [H|H].
  - destruct (at_pos r c i j); cbn in H; [destruct H as [<-|[]]; lia|destruct H].
  - apply IH in H. lia.
Qed.
Lemma poslist_nodup ir : forall k jc i j, NoDup (poslist k ir jc i j).
Proof.
  induction ir as [|r ir IH]; intros k [|c jc] i j; cbn; try constructor.
  destruct (at_pos r c i j); cbn; auto. constructor; auto. intros H. apply poslist_ge in H. lia.
Qed.
Lemma at_pos_true r c i j : at_pos r c i j = true <-> (r = i /\ c = j) \/ (r = j /\ c = i).
Proof. unfold at_pos. rewrite orb_true_iff, !andb_true_iff, !Nat.eqb_eq. tauto. Qed.
Lemma poslist_In ir : forall jc i j k0 k, In (k0 + k)%nat (poslist k0 ir jc i j) <-> trip_at ir jc i j k.
Proof.
  unfold trip_at, at_.
  induction ir as [|r ir IH]; intros jc i j k0 k.
  - cbn. split; [tauto|]. intros [[H _]|[H _]]; destruct k; discriminate H.
  - destruct jc as [|c jc]; cbn.
    + split; [tauto|]. intros [[_ H]|[_ H]]; destruct k; discriminate H.
    + rewrite in_app_iff. destruct k as [|k].
      * rewrite Nat.add_0_r. cbn. split.
        -- intros [H|H]; [|apply poslist_ge in H; lia].
           destruct (at_pos r c i j) eqn:Ep; [|destruct H]. apply at_pos_true in Ep.
           destruct Ep as [[-> ->]|[-> ->]]; auto.
        -- intros H. left. assert (Ep : at_pos r c i j = true).
           { apply at_pos_true. destruct H as [[H1 H2]|[H1 H2]]; injection H1; injection H2; auto. }
           rewrite Ep. cbn. auto.
      * cbn. rewrite <- (IH jc i j (Datatypes.S k0) k). replace (k0 + Datatypes.S k)%nat with (Datatypes.S k0 + k)%nat by lia.
        split; [|auto]. intros [H|H]; auto. destruct (at_pos r c i j); cbn in H; [destruct H as [H|[]]; lia|destruct H].
Qed.
(* sum of the values at these positions *)
Definition pick (v : list R) (ks : list nat) : R := fold_right Rplus 0 (map (fun k => nth k v 0) ks).
Lemma pick_app v a b : pick v (a ++ b) = pick v a + pick v b.
Proof. unfold pick. rewrite map_app, fold_right_app. induction a as [|x a IH]; cbn; [ring|]. rewrite IH. ring. Qed.
Lemma tmat_pick ir : forall jc v i j pre, length jc = length ir -> length v = length ir ->
  tmat ir jc v i j = pick (pre ++ v) (poslist (length pre) ir jc i j).
Proof.
  induction ir as [|r ir IH]; intros [|c jc] [|x v] i j pre L1 L2; try discriminate; cbn [tmat poslist]; auto.
  rewrite pick_app. cbn in L1, L2.
  rewrite (IH jc v i j (pre ++ [x])) by lia. rewrite <- app_assoc. cbn [app].
  rewrite app_length. cbn [length]. rewrite Nat.add_1_r. f_equal.
  destruct (at_pos r c i j); unfold pick; cbn; auto. rewrite app_nth2 by lia. rewrite Nat.sub_diag. cbn. ring.
Qed.
Lemma pick_perm v a b : Permutation a b -> pick v a = pick v b.
Proof. unfold pick. induction 1; cbn; try lra. Qed.
Lemma pick_al v : forall ks al, map (nth_error v) ks = map Some al -> pick v ks = fold_right Rplus 0 al.
Proof.
  unfold pick. induction ks as [|k ks IH]; intros [|a al] H; try discriminate H; cbn; auto.
  cbn in H. injection H as H1 H2. rewrite (IH _ H2). rewrite (nth_error_nth _ _ _ H1). reflexivity.
Qed.

Lemma csr_denotes hf off d ir jc v ia ja out vals :
  in_range d ir jc -> length vals = length ir -> csr_shape off d ia ja -> length out = length ja ->
  v = vals ->
  (forall i j, (exists p, csr_pos off ia ja i j p) <-> (exists k, trip_at ir jc i j k) /\ (hf = CsrModel.Triangular -> (i <= j)%nat)) ->
  (forall i j p, csr_pos off ia ja i j p -> exists k0 ks a0 al, triplets_of ir jc i j (k0 :: ks) /\
      nth_error vals k0 = Some a0 /\ map (nth_error vals) ks = map Some al /\ nth_error out p = Some (fold_left Rplus al a0)) ->
  denotes (CsrF hf off) d (map Some ia) (map Some ja) out (tmat ir jc vals).
Proof.
  intros Hr Lv Hs Lo -> Hp Hv. exists ia, ja. split; auto. split; auto. split; auto. split; auto. split.
  { intros. apply tmat_sym. }
  destruct Hr as [Lr _].
  intros i j Hi Hj Ht. split.
  - intros p P. destruct (Hv i j p P) as (k0 & ks & a0 & al & [N T] & A0 & AL & ->). f_equal.
    rewrite fold_left_plus. rewrite (tmat_pick ir jc vals i j []) by lia. cbn [app length].
    rewrite (pick_perm vals (poslist 0 ir jc i j) (k0 :: ks)).
    + unfold pick. cbn. rewrite (nth_error_nth _ _ _ A0). fold (pick vals ks). rewrite (pick_al _ _ _ AL). reflexivity.
    + apply NoDup_Permutation; auto. { apply poslist_nodup. }
      intros k. rewrite (T k). apply (poslist_In ir jc i j 0 k).
  - intros Hn. rewrite (tmat_pick ir jc vals i j []) by lia. cbn [app length].
    destruct (poslist 0 ir jc i j) as [|k ks] eqn:Ek; [reflexivity|]. exfalso.
    assert (In (0 + k)%nat (poslist 0 ir jc i j)) by (rewrite Ek; cbn; auto).
    apply poslist_In in H. destruct (proj2 (Hp i j)) as [p P]; [split; [eauto|auto]|]. exact (Hn p P).
Qed.

(** * The state machine *)
Section M.
Context {W : Type}.
Variables (E : env W) (f : fmt) (usable : status -> bool) (scaling : bool) (sort : list CsrModel.entry -> list CsrModel.entry).
Variables (Allowed Str : nat -> nat -> CsrModel.arr -> CsrModel.arr -> W -> Prop) (Idle : W -> Prop) (Fresh : W -> bool -> Prop) (Uses : W -> bool -> list R -> Prop).
Hypothesis B : backend E f usable Allowed Str Idle Fresh Uses.
Hypothesis Hsort : forall l, std_sorted l (sort l).

(* the structure stored in the object is that of A *)
Definition nz_of (s : ts W) : nat := match f with TripF => s_nzt s | CsrF _ _ => s_nzc s end.
Definition gives (A : smat) (s : ts W) : Prop :=
  s_fmt s = f /\ s_dim s = m_dim A /\ s_ir s = m_ir A /\ s_jc s = m_jc A /\
  match f with
  | TripF => s_nzt s = m_nz A
  | CsrF hf off => exists v, s_conv s = Some v /\
      forall scaled junk, length scaled = m_nz A -> length junk = s_nzc s ->
        exists pa, CsrModel.convert_values Rplus v scaled junk = Some pa /\ length pa = s_nzc s /\
          denotes f (m_dim A) (fst (ia_ja s)) (snd (ia_ja s)) pa (tmat (m_ir A) (m_jc A) scaled)
  end.
Definition str (s : ts W) (w : W) : Prop := Str (s_dim s) (nz_of s) (fst (ia_ja s)) (snd (ia_ja s)) w.
Definition amat (s : ts W) (M : nat -> nat -> R) : nat -> nat -> R := if s_use s then mscale (s_fac s) M else M.
Definition fac_ok (s : ts W) : Prop := s_use s = true -> length (s_fac s) = s_dim s /\ Forall (fun x => x <> 0) (s_fac s).

Lemma same_gives A C s : same_struct A C -> gives C s -> gives A s.
Proof.
  intros (E1 & E2 & E3) (H1 & H2 & H3 & H4 & H5). unfold gives. rewrite E1, E2, E3. repeat (split; [assumption|]).
  unfold m_nz in *. rewrite E2. exact H5.
Qed.

(* fields kept by [give_matrix] and [solve_loop] *)
Definition kept (s s' : ts W) : Prop :=
  s_atag s' = s_atag s /\ s_dim s' = s_dim s /\ s_nzt s' = s_nzt s /\ s_nzc s' = s_nzc s /\ s_ir s' = s_ir s /\ s_jc s' = s_jc s /\
  s_have s' = s_have s /\ s_init s' = s_init s /\ s_fmt s' = s_fmt s /\ s_conv s' = s_conv s /\ s_use s' = s_use s /\ s_ondemand s' = s_ondemand s.
Lemma kept_refl s : kept s s. Proof. unfold kept. tauto. Qed.
Lemma kept_trans a b c : kept a b -> kept b c -> kept a c.
Proof. unfold kept. intuition congruence. Qed.
Lemma kept_ia s s' : kept s s' -> ia_ja s' = ia_ja s.
Proof. unfold kept, ia_ja. intros (_ & _ & _ & _ & -> & -> & _ & _ & -> & -> & _ & _). reflexivity. Qed.
Lemma kept_str s s' w : kept s s' -> str s' w = str s w.
Proof. intros K. unfold str, nz_of. rewrite (kept_ia s s' K). destruct K as (_ & -> & -> & -> & _). reflexivity. Qed.
Lemma kept_gives A s s' : kept s s' -> gives A s -> gives A s'.
Proof.
  intros K. unfold gives. rewrite (kept_ia s s' K). destruct K as (_ & -> & -> & -> & -> & -> & _ & _ & -> & -> & _ & _). auto.
Qed.

Definition given (A : smat) (s' : ts W) (w1 : W) (pa : list R) (es : list event) (s : ts W) : Prop :=
  s_w s' = w_put E pa w1 /\ str s w1 /\ length pa = nz_of s /\
  denotes f (m_dim A) (fst (ia_ja s)) (snd (ia_ja s)) pa (amat s' (matrix A)) /\ s_ev s' = E_put pa :: es.

Lemma put_str s w v : str s w -> length v = nz_of s -> str s (w_put E v w).
Proof. intros H L. apply (b_put _ _ _ _ _ _ _ _ B _ _ _ _ _ v H L). Qed.
Lemma put_fresh s w v fl : str s w -> length v = nz_of s -> Fresh w fl -> Fresh (w_put E v w) fl /\ Uses (w_put E v w) fl v.
Proof. intros H L. apply (b_put _ _ _ _ _ _ _ _ B _ _ _ _ _ v H L). Qed.

(* what is written, for values [sc] of the triplets *)
Definition write (sc : list R) (s : ts W) : option (bool * ts W) :=
  match s_fmt s with
  | TripF => Some (true, log (set_w s (w_put E sc (s_w s))) (E_put sc))
  | CsrF _ _ =>
      match s_conv s with
      | None => None
      | Some v =>
          match CsrModel.convert_values Rplus v sc (w_get E (s_nzc s) (s_w s)) with
          | None => None
          | Some pa => Some (true, log (set_w s (w_put E pa (s_w s))) (E_put pa))
          end
      end
  end.
Lemma write_ok A s sc : wf_smat f A -> gives A s -> str s (s_w s) -> length sc = m_nz A ->
  exists pa, write sc s = Some (true, log (set_w s (w_put E pa (s_w s))) (E_put pa)) /\ length pa = nz_of s /\
    denotes f (m_dim A) (fst (ia_ja s)) (snd (ia_ja s)) pa (tmat (m_ir A) (m_jc A) sc).
Proof.
  intros Hw Hg Hs L. unfold write. pose proof Hg as (G1 & G2 & G3 & G4 & G5). rewrite G1. destruct Hw as (_ & _ & [Lr _] & _).
  unfold nz_of. destruct f as [|hf off] eqn:Ef.
  - exists sc. split; auto. split; [congruence|]. unfold ia_ja. rewrite G1, G3, G4. cbn. exists (m_ir A), (m_jc A).
    unfold m_nz in L. repeat split; auto; congruence.
  - destruct G5 as (v & -> & H). destruct (H sc (w_get E (s_nzc s) (s_w s))) as (pa & -> & L' & D); auto.
    { unfold str, nz_of in Hs. rewrite Ef in Hs. apply (b_get _ _ _ _ _ _ _ _ B _ _ _ _ _ Hs). }
    exists pa. split; auto.
Qed.

Definition rescale (new : bool) (s : ts W) : bool := s_use s && (new || s_just s).
Lemma kept_set_w s w : kept s (set_w s w). Proof. unfold kept. cbn. tauto. Qed.
Lemma kept_log s e : kept s (log s e). Proof. unfold kept. cbn. tauto. Qed.

Lemma give_ok new A s : wf_smat f A -> gives A s -> str s (s_w s) -> (rescale new s = false -> fac_ok s) ->
  exists ok s', give_matrix E new A s = Some (ok, s') /\ kept s s' /\
    (ok = false -> s_ev s' = s_ev s) /\
    (ok = true -> exists w1 pa, s_w s' = w_put E pa w1 /\ str s w1 /\ length pa = nz_of s /\
       denotes f (m_dim A) (fst (ia_ja s)) (snd (ia_ja s)) pa (amat s' (matrix A)) /\ s_ev s' = E_put pa :: s_ev s /\
       fac_ok s' /\ s_just s' = (if rescale new s then false else s_just s) /\
       (rescale new s = false -> s_fac s' = s_fac s /\ forall fl, Fresh (s_w s) fl -> Fresh w1 fl)).
Proof.
  intros Hw Hg Hs Hf.
  set (s1 := match s_fmt s with TripF => set_w s (w_put E (m_val A) (s_w s)) | _ => s end).
  assert (K1 : kept s s1). { unfold s1. destruct (s_fmt s); [apply kept_set_w|apply kept_refl]. }
  assert (Hl : length (m_val A) = m_nz A) by apply Hw.
  assert (S1 : str s1 (s_w s1) /\ forall fl, Fresh (s_w s) fl -> Fresh (s_w s1) fl).
  { rewrite (kept_str _ _ _ K1). unfold s1. destruct (s_fmt s) eqn:Ef; [|auto].
    assert (L : length (m_val A) = nz_of s).
    { destruct Hg as (G1 & _ & _ & _ & G5). rewrite Ef in G1. unfold nz_of. rewrite <- G1 in *. congruence. }
    cbn. split; [apply put_str; auto|]. intros fl Hfl. apply (put_fresh s); auto. }
  destruct S1 as [S1 F1].
  assert (J1 : s_just s1 = s_just s) by (unfold s1; destruct (s_fmt s); reflexivity).
  assert (FA1 : s_fac s1 = s_fac s) by (unfold s1; destruct (s_fmt s); reflexivity).
  assert (EV1 : s_ev s1 = s_ev s) by (unfold s1; destruct (s_fmt s); reflexivity).
  assert (U1 : s_use s1 = s_use s) by apply K1.
  set (q := if s_use s1 && (new || s_just s1) then
      let '(ok, fa, w) := w_scale E (s_dim s1) (s_ir s1) (s_jc s1) (m_val A) (s_w s1) in
      if ok then (true, set_fac (set_w s1 w) fa false) else (false, set_fac (set_w s1 w) fa (s_just s1))
    else (true, s1)).
  assert (Q : kept s1 (snd q) /\ s_ev (snd q) = s_ev s1 /\ (fst q = true -> str s1 (s_w (snd q)) /\ fac_ok (snd q) /\
     s_just (snd q) = (if rescale new s then false else s_just s) /\
     (rescale new s = false -> s_fac (snd q) = s_fac s /\ s_w (snd q) = s_w s1))).
  { unfold q. rewrite U1, J1. unfold rescale in *. destruct (s_use s && (new || s_just s)) eqn:Er.
    - destruct (w_scale E (s_dim s1) (s_ir s1) (s_jc s1) (m_val A) (s_w s1)) as [[ok fa] w] eqn:Ew.
      destruct (b_scale _ _ _ _ _ _ _ _ B _ _ _ _ _ _ _ _ _ _ _ _ S1 Ew) as [Sw Fw].
      destruct ok; cbn [fst snd].
      + split; [unfold kept; cbn; tauto|]. split; auto. intros _. split; [exact Sw|]. split; [|split; [reflexivity|discriminate]].
        intros _. apply Fw. auto.
      + split; [unfold kept; cbn; tauto|]. split; auto. discriminate.
    - cbn [fst snd]. split; [apply kept_refl|]. split; auto. intros _. split; auto. split; [|split; [congruence|auto]].
      specialize (Hf eq_refl). unfold fac_ok in *. rewrite U1, FA1. replace (s_dim s1) with (s_dim s); auto. symmetry. apply K1. }
  assert (EQ : give_matrix E new A s = (if negb (fst q) then Some (false, snd q) else
     write (if s_use (snd q) then sc_vals (s_fac (snd q)) (s_ir (snd q)) (s_jc (snd q)) (m_val A) else m_val A) (snd q))).
  { unfold give_matrix. fold s1. fold q. destruct q as [ok s2]. cbn [fst snd]. reflexivity. }
  rewrite EQ. destruct q as [ok s2]. cbn [fst snd] in *. destruct Q as (K2 & EV2 & Q).
  pose proof (kept_trans _ _ _ K1 K2) as K.
  destruct ok; cbn [negb].
  - destruct Q as (S2 & FO & J2 & R2); auto.
    assert (HU : s_use s2 = s_use s) by apply K.
    assert (HIR : s_ir s2 = m_ir A /\ s_jc s2 = m_jc A).
    { destruct Hg as (_ & _ & G3 & G4 & _). destruct K as (_ & _ & _ & _ & K5 & K6 & _). split; congruence. }
    destruct HIR as [I1 I2]. rewrite I1, I2.
    pose proof Hw as (_ & _ & [Lr _] & _).
    set (sc := if s_use s2 then sc_vals (s_fac s2) (m_ir A) (m_jc A) (m_val A) else m_val A).
    assert (Lsc : length sc = m_nz A). { unfold sc. destruct (s_use s2); auto. apply sc_length; auto. }
    destruct (write_ok A s2 sc Hw (kept_gives A s s2 K Hg)) as (pa & E1 & L1 & D1); auto.
    { rewrite <- (kept_str _ _ _ K2) in S2. exact S2. }
    exists true. eexists. split; [exact E1|]. split.
    { eapply kept_trans; [exact K|]. eapply kept_trans; [apply kept_set_w|apply kept_log]. }
    split; [discriminate|]. intros _. exists (s_w s2), pa. split; [reflexivity|].
    rewrite (kept_str _ _ _ K1) in S2. split; [exact S2|].
    rewrite (kept_ia _ _ K) in D1. assert (NZ : nz_of s2 = nz_of s) by (unfold nz_of; destruct K as (_ & _ & -> & -> & _); reflexivity).
    split; [congruence|]. split.
    + unfold amat. cbn [s_use log set_w s_fac].
      unfold sc, matrix in *. destruct (s_use s2); auto.
      clear - D1. destruct f as [|hf off]; cbn [denotes] in *.
      * destruct D1 as (ir & jc & A1 & A2 & A3 & A4 & A5). exists ir, jc. repeat (split; [assumption|]).
        intros i j Hi Hj. rewrite <- (A5 i j Hi Hj). symmetry. apply tmat_scaled.
      * destruct D1 as (ir & jc & A1 & A2 & A3 & A4 & A5 & A6). exists ir, jc. repeat (split; [assumption|]). split.
        -- intros i j Hi Hj. rewrite <- !tmat_scaled. apply A5; auto.
        -- intros i j Hi Hj Ht. rewrite <- tmat_scaled. apply A6; auto.
    + split; [cbn; congruence|]. split; [exact FO|]. split; [exact J2|]. intros Hr. destruct (R2 Hr) as [R3 R4]. split; [exact R3|].
      rewrite R4. exact F1.
  - exists false, s2. split; auto. split; auto. split; [intros _; congruence|discriminate].
Qed.

(** ** The loop *)
Definition evs_ok (new : bool) (s s' : ts W) (o : option (status * list R)) (es : list event) : Prop :=
  s_ev s' = es ++ s_ev s /\
  (forall n i j r, In (E_solve n i j r) es -> n = new) /\
  (forall d nz ia ja r, ~ In (E_struct d nz ia ja r) es) /\
  (protocol usable (s_ev s) -> structure (s_ev s) = Some (s_dim s, nz_of s, fst (ia_ja s), snd (ia_ja s)) ->
   directly_before usable new (s_ev s) ->
   protocol usable (s_ev s') /\ structure (s_ev s') = structure (s_ev s) /\
   forall r rhs', o = Some (r, rhs') -> exists past, s_ev s' = E_solve new (fst (ia_ja s)) (snd (ia_ja s)) r :: past).
Lemma loop_ok fuel : forall new A nrhs rhs chk n s vals, wf_smat f A -> gives A s -> str s (s_w s) -> (rescale false s = false) -> fac_ok s ->
  Uses (s_w s) new vals -> denotes f (m_dim A) (fst (ia_ja s)) (snd (ia_ja s)) vals (amat s (matrix A)) ->
  length rhs = (nrhs * s_dim s)%nat ->
  exists o thrown s' es, solve_loop E fuel new A nrhs rhs chk n s = Some (o, thrown, s') /\ kept s s' /\ evs_ok new s s' o es /\
    (thrown = true -> o = None) /\
    (s_fac s' = s_fac s /\ s_just s' = s_just s) /\
    forall r rhs', o = Some (r, rhs') -> (str s' (s_w s') /\ Idle (s_w s')) /\ r <> CALL_AGAIN /\
      (usable r = true -> exists vals', Uses (s_w s') false vals' /\
         denotes f (m_dim A) (fst (ia_ja s)) (snd (ia_ja s)) vals' (amat s (matrix A))) /\
      (r = SUCCESS -> length rhs' = length rhs /\ forall k, (k < nrhs)%nat ->
         solves (m_dim A) (amat s (matrix A)) (slice (s_dim s) k rhs') (slice (s_dim s) k rhs)).
Proof.
  induction fuel as [|fuel IH]; intros new A nrhs rhs chk n s vals Hw Hg Hs Hr Hf Hu Hd Hl; cbn [solve_loop].
  { exists None, false, s, []. split; auto. split; [apply kept_refl|]. split.
    { split; auto. split; [intros ? ? ? ? []|]. split; [intros ? ? ? ? ? []|]. intros P St D. split; auto. split; auto. discriminate. }
    split; auto. split; auto. discriminate. }
  destruct (ia_ja s) as [ia ja] eqn:Eia.
  destruct (w_solve E new ia ja nrhs rhs chk n (s_w s)) as [[r rhs'] w'] eqn:Ew.
  assert (Hs' := Hs). unfold str in Hs'. rewrite Eia in Hs'. cbn [fst snd] in *.
  destruct (b_solve _ _ _ _ _ _ _ _ B _ _ _ _ _ _ _ _ _ _ _ _ _ _ Hs' Hu Hl Ew) as (S2 & ID2 & U2 & OK2 & CA2).
  set (s2 := log (set_w s w') (E_solve new ia ja r)).
  assert (K2 : kept s s2) by (eapply kept_trans; [apply kept_set_w|apply kept_log]).
  assert (EV2 : s_ev s2 = [E_solve new ia ja r] ++ s_ev s) by reflexivity.
  assert (EVK : evs_ok new s s2 (match r with CALL_AGAIN => None | _ => Some (r, rhs') end) [E_solve new ia ja r]).
  { split; [reflexivity|]. split; [intros n0 i j r0 [Q|[]]; congruence|]. split; [intros ? ? ? ? ? [Q|[]]; discriminate Q|].
    rewrite Eia. cbn [fst snd]. intros P St D. split.
    - cbn. split; auto. split; auto. eauto.
    - split; [exact eq_refl|]. intros r0 rhs0 Q. assert (r0 = r) as -> by (destruct r; congruence). exists (s_ev s). reflexivity. }
  assert (SS : str s2 (s_w s2)). { rewrite (kept_str _ _ _ K2). unfold str. rewrite Eia. exact S2. }
  assert (DIM : s_dim s = m_dim A) by apply Hg.
  assert (Main : r <> CALL_AGAIN ->
     exists o thrown s' es, Some (Some (r, rhs'), false, s2) = Some (o, thrown, s') /\ kept s s' /\ evs_ok new s s' o es /\
    (thrown = true -> o = None) /\
    (s_fac s' = s_fac s /\ s_just s' = s_just s) /\
    forall r rhs', o = Some (r, rhs') -> (str s' (s_w s') /\ Idle (s_w s')) /\ r <> CALL_AGAIN /\
      (usable r = true -> exists vals', Uses (s_w s') false vals' /\
         denotes f (m_dim A) ia ja vals' (amat s (matrix A))) /\
      (r = SUCCESS -> length rhs' = length rhs /\ forall k, (k < nrhs)%nat ->
         solves (m_dim A) (amat s (matrix A)) (slice (s_dim s) k rhs') (slice (s_dim s) k rhs))).
  { intros N. exists (Some (r, rhs')), false, s2, [E_solve new ia ja r]. split; auto. split; auto. split; [destruct r; auto; congruence|]. split; [discriminate|].
    split; [split; reflexivity|]. intros r0 rhs0 Q. injection Q as <- <-. split; auto. split; auto. split.
    - intros Hus. exists vals. split; [apply U2; auto|auto].
    - intros Hsu. destruct (OK2 Hsu) as [L2 M2]. split; auto. rewrite DIM in *. intros k Hk. apply M2; auto. }
  destruct r; try (apply Main; discriminate).
  (* called again *)
  destruct (CA2 eq_refl) as [-> Fr].
  assert (R2 : rescale false s2 = false) by exact Hr.
  destruct (give_ok false A s2 Hw (kept_gives A s s2 K2 Hg) SS) as (ok & s3 & E3 & K3 & EV3 & G3).
  { intros _. exact Hf. }
  fold s2. rewrite E3. destruct ok.
  - destruct G3 as (w1 & pa & W3 & S3 & L3 & D3 & V3 & F3 & J3 & R3); auto.
    destruct (R3 R2) as [FA3 FR3].
    pose proof (kept_trans _ _ _ K2 K3) as K.
    rewrite (kept_str _ _ _ K2) in S3. assert (NZ : nz_of s2 = nz_of s) by reflexivity. rewrite NZ in L3.
    destruct (put_fresh s w1 pa new S3 L3 (FR3 new Fr)) as [_ U3].
    rewrite (kept_ia _ _ K2), Eia in D3. cbn [fst snd] in D3.
    assert (AM : amat s3 (matrix A) = amat s (matrix A)).
    { unfold amat. rewrite FA3. cbn [s2 log set_w s_fac]. replace (s_use s3) with (s_use s); auto. symmetry. apply K. }
    rewrite R2 in J3.
    destruct (IH new A nrhs rhs chk n s3 pa) as (o & th & s' & es & E4 & K4 & V4 & T4 & FJ4 & H4); auto.
    + apply (kept_gives A s s3 K Hg).
    + rewrite (kept_str _ _ _ K), W3. apply put_str; auto.
    + unfold rescale in *. replace (s_use s3) with (s_use s) by (symmetry; apply K). rewrite J3. exact Hr.
    + rewrite W3. exact U3.
    + rewrite (kept_ia _ _ K), Eia. cbn [fst snd]. rewrite AM in *. exact D3.
    + replace (s_dim s3) with (s_dim s) by (symmetry; apply K). exact Hl.
    + exists o, th, s', (es ++ [E_put pa; E_solve new ia ja CALL_AGAIN]). rewrite E4. split; auto. split; [eapply kept_trans; eauto|]. split.
      { destruct V4 as (V41 & V42 & V43 & V44). split; [rewrite V41, V3, EV2, <- app_assoc; reflexivity|]. split.
        { intros n0 i j r0 Q. apply in_app_iff in Q. destruct Q as [Q|[Q|[Q|[]]]]; [eauto|discriminate|congruence]. }
        split. { intros d0 nz0 i0 j0 r0 Q. apply in_app_iff in Q. destruct Q as [Q|[Q|[Q|[]]]]; [exact (V43 _ _ _ _ _ Q)|discriminate|discriminate]. }
        intros P St D. rewrite Eia in *. cbn [fst snd] in *.
        assert (NZ3 : nz_of s3 = nz_of s) by (unfold nz_of; destruct K as (_ & _ & -> & -> & _); reflexivity).
        assert (DI3 : s_dim s3 = s_dim s) by apply K.
        rewrite (kept_ia _ _ K), Eia, NZ3, DI3 in V44. cbn [fst snd] in V44.
        assert (ST3 : structure (s_ev s3) = Some (s_dim s, nz_of s, ia, ja)). { rewrite V3, EV2. cbn. exact St. }
        destruct V44 as (Q1 & Q2 & Q3); auto.
        - rewrite V3, EV2. cbn. split; [split; auto; split; eauto|]. eauto 8.
        - rewrite V3, EV2. cbn. reflexivity.
        - split; auto. split; [|exact Q3]. rewrite Q2, ST3. symmetry. exact St. }
      split; auto. split. { destruct FJ4 as [-> ->]. split; [rewrite FA3; reflexivity|rewrite J3; reflexivity]. }
      intros r0 rhs0 Q. destruct (H4 r0 rhs0 Q) as (A1 & A2 & A3 & A4). rewrite (kept_ia _ _ K), Eia, AM in A3. rewrite AM in A4.
      replace (s_dim s3) with (s_dim s) in A4 by (symmetry; apply K). auto.
  - exists None, true, s3, [E_solve new ia ja CALL_AGAIN]. split; auto. split; [exact (kept_trans _ _ _ K2 K3)|]. split.
    { destruct EVK as (V1 & V2 & V3 & V4). unfold evs_ok. rewrite (EV3 eq_refl). auto. }
    split; auto. split; [|discriminate].
    clear - E3 R2. unfold rescale in R2. unfold give_matrix in E3.
    set (s1 := match s_fmt s2 with TripF => set_w s2 (w_put E (m_val A) (s_w s2)) | _ => s2 end) in *.
    assert (Q : s_use s1 && (false || s_just s1) = false). { unfold s1. destruct (s_fmt s2); exact R2. }
    rewrite Q in E3. cbn [negb] in E3. destruct (s_fmt s1); [discriminate|]. destruct (s_conv s1); [|discriminate].
    destruct (CsrModel.convert_values _ _ _ _); discriminate.
Qed.

(** ** The invariant of all histories *)
Definition calm (es : list event) : Prop := match es with E_solve _ _ _ CALL_AGAIN :: _ => False | _ => True end.
Definition structured (s : ts W) : Prop :=
  str s (s_w s) /\ structure (s_ev s) = Some (s_dim s, nz_of s, fst (ia_ja s), snd (ia_ja s)) /\ calm (s_ev s).
Definition inv (v : view) (s : ts W) : Prop :=
  protocol usable (s_ev s) /\
  (v_on v = true ->
   s_just s = v_pend v /\ (s_just s = true -> s_use s = true) /\ v_od v = scaling && negb (s_use s) && s_ondemand s /\ s_fmt s = f /\
   if s_have s then
     exists C, v_last v = Some C /\ gives C s /\ s_atag s = m_tag C /\
       if s_init s then (structured s /\ Idle (s_w s)) /\
         (v_good v = true -> (exists n ia ja r past, s_ev s = E_solve n ia ja r :: past /\ usable r = true) /\
            (v_pend v = false -> fac_ok s /\ exists vals, Uses (s_w s) false vals /\
               denotes f (m_dim C) (fst (ia_ja s)) (snd (ia_ja s)) vals (amat s (matrix C))))
       else v_good v = false /\ Allowed (s_dim s) (nz_of s) (fst (ia_ja s)) (snd (ia_ja s)) (s_w s)
   else s_init s = false /\ s_atag s = 0%nat /\ v_last v = None /\ forall d nz ia ja, Allowed d nz ia ja (s_w s)).

Lemma inv_new w : inv (View false None false false false) (new_ts w).
Proof. split; [exact I|]. cbn. discriminate. Qed.

Lemma inv_init v s od warm r s' : inv v s -> (warm = true -> v_on v = true) -> initialize E scaling od warm s = (r, s') ->
  inv (after_init scaling od warm r v) s'.
Proof.
  intros [P H] Hwarm. unfold initialize.
  destruct (w_init E warm (s_w s)) as [ok w] eqn:Ewi. cbn [s_have s_ondemand].
  destruct ok; cbn [negb].
  2:{ intros Q; injection Q as <- <-. split; [exact P|]. cbn. discriminate. }
  destruct warm; cbn [andb].
  - specialize (H (Hwarm eq_refl)). destruct H as (H1 & H2 & H3 & H4 & H5).
    destruct (s_have s) eqn:Eh; cbn [negb andb].
    2:{ intros Q; injection Q as <- <-. split; [exact P|]. cbn. discriminate. }
    destruct H5 as (C & L & G & T & AL).
    assert (ALw : Allowed (s_dim s) (nz_of s) (fst (ia_ja s)) (snd (ia_ja s)) w).
    { apply (b_warm _ _ _ _ _ _ _ _ B _ _ _ _ (s_w s)); auto. destruct (s_init s); [right; split; apply AL|left; apply AL]. }
    assert (K : forall w', Allowed (s_dim s) (nz_of s) (fst (ia_ja s)) (snd (ia_ja s)) w' -> inv (after_init scaling od true (Some true) v)
      (TS w' (s_atag s) (s_dim s) (s_nzt s) (s_nzc s) (s_ir s) (s_jc s) (s_fac s) true false (s_fmt s) (s_conv s)
         (scaling && negb (if scaling then od else false)) false (if scaling then od else false) (s_ev s))).
    { intros w' Aw. split; [exact P|]. intros _. cbn. split; auto. split; [discriminate|].
      split; [destruct scaling, od; reflexivity|]. split; auto. exists C. split; [exact L|]. split; [exact G|]. split; [exact T|]. split; [reflexivity|exact Aw]. }
    destruct scaling eqn:Es; intros Q.
    + destruct (w_scinit E _) as [ok' w''] eqn:Ew in Q. injection Q as <- <-. destruct ok'.
      * apply K. eapply (b_scinit _ _ _ _ _ _ _ _ B); [exact ALw|exact Ew].
      * split; [exact P|]. cbn. discriminate.
    + injection Q as <- <-. apply K. exact ALw.
  - pose proof (b_cold _ _ _ _ _ _ _ _ B _ _ Ewi) as ALw.
    assert (K : forall w0 w', (forall d nz ia ja, Allowed d nz ia ja w') -> inv (after_init scaling od false (Some true) v)
      (TS w' 0 0 0 0 (s_ir s) (s_jc s) (s_fac s) false false (w_fmt E w0) None
         (scaling && negb (if scaling then od else false)) false (if scaling then od else false) (s_ev s))).
    { intros w0 w' Aw. split; [exact P|]. intros _. cbn. split; auto. split; [discriminate|].
      split; [destruct scaling, od; reflexivity|]. split; [apply (b_fmt _ _ _ _ _ _ _ _ B)|]. auto. }
    destruct scaling eqn:Es; intros Q.
    + destruct (w_scinit E _) as [ok' w''] eqn:Ew in Q. injection Q as <- <-. destruct ok'.
      * apply K. intros. eapply (b_scinit _ _ _ _ _ _ _ _ B); [apply ALw|exact Ew].
      * split; [exact P|]. cbn. discriminate.
    + injection Q as <- <-. apply K. exact ALw.
Qed.

Lemma inv_incq v s b s' : inv v s -> increase_quality E scaling s = (b, s') -> inv (after_incq v) s'.
Proof.
  intros [P H]. unfold increase_quality.
  destruct (v_on v) eqn:Eon.
  2:{ intros Q. assert (V : v_on (after_incq v) = false) by (unfold after_incq; destruct (v_od v); auto).
      split; [|rewrite V; discriminate].
      destruct (scaling && negb (s_use s) && s_ondemand s); [|destruct (w_incq E (s_w s))]; injection Q as <- <-; exact P. }
  specialize (H eq_refl). destruct H as (H1 & H2 & H3 & H4 & H5). unfold after_incq. rewrite H3.
  destruct (scaling && negb (s_use s) && s_ondemand s) eqn:Ec; intros Q.
  - injection Q as <- <-. split; [exact P|]. intros _. cbn. split; auto. split; auto.
    split; [destruct scaling; reflexivity|]. split; auto.
    destruct (s_have s); auto. destruct H5 as (C & L & G & T & H5). exists C. split; auto. split; [exact G|]. split; auto.
    destruct (s_init s); auto. destruct H5 as [S5 G5]. split; [exact S5|]. intros Hg. destruct (G5 Hg) as [G6 _]. split; auto. discriminate.
  - destruct (w_incq E (s_w s)) as [b' w'] eqn:Ew. injection Q as <- <-. split; [exact P|]. intros _.
    split; auto. split; auto. split; [cbn; rewrite H3, Ec; reflexivity|]. split; auto.
    cbn [set_w s_have]. destruct (s_have s).
    2:{ destruct H5 as (X1 & X2 & X3 & X4). repeat (split; [assumption|]). intros. cbn. eapply (b_incq_allowed _ _ _ _ _ _ _ _ B); [apply X4|exact Ew]. }
    destruct H5 as (C & L & G & T & H5). exists C. split; auto. split; [exact G|]. split; auto.
    cbn [set_w s_init]. destruct (s_init s).
    2:{ destruct H5 as [X1 X2]. split; [exact X1|]. eapply (b_incq_allowed _ _ _ _ _ _ _ _ B); [apply X2|exact Ew]. }
    destruct H5 as [[[S5 S6] ID5] G5].
    destruct (b_incq _ _ _ _ _ _ _ _ B _ _ _ _ _ _ _ S5 ID5 Ew) as (S7 & ID7 & U7).
    split; [split; [split; [exact S7|exact S6]|exact ID7]|]. intros Hg. destruct (G5 Hg) as [G6 G7]. split; auto. intros Hp. destruct (G7 Hp) as [F (vals & U & D)].
    split; auto. exists vals. split; [apply U7; exact U|exact D].
Qed.

(** ** The structure stage *)
Lemma structure_ok v s A rhsV : inv v s -> v_on v = true -> may_solve f v A rhsV -> s_init s = false ->
  exists r s' d nz ia ja, init_structure E scaling sort A s = Some (Some r, s') /\ (r = SUCCESS \/ r = FATAL_ERROR) /\
    s_ev s' = E_struct d nz ia ja r :: s_ev s /\
    (r = SUCCESS -> gives A s' /\ structured s' /\ s_init s' = true /\ s_have s' = true /\ s_atag s' = s_atag s /\ s_use s' = s_use s /\
       s_just s' = s_just s /\ s_ondemand s' = s_ondemand s).
Proof.
  intros [P H] Hon (_ & Hw & _ & Hlast) Hi. specialize (H Hon). destruct H as (H1 & H2 & H3 & H4 & H5).
  unfold init_structure. destruct (s_have s) eqn:Eh; cbn [negb].
  - (* warm start *)
    destruct H5 as (C & L & G & T & AL). rewrite Hi in AL. destruct AL as [_ AL]. rewrite L in Hlast. destruct Hlast as [SS _].
    pose proof (same_gives A C s SS G) as GA.
    assert (DM : (s_dim s =? m_dim A)%nat = true) by (apply Nat.eqb_eq, GA). rewrite DM. cbn [negb].
    destruct (ia_ja s) as [ia ja] eqn:Eia.
    set (nz := match s_fmt s with TripF => s_nzt s | CsrF _ _ => s_nzc s end).
    destruct (w_struct E (s_dim s) nz ia ja (s_w s)) as [r w'] eqn:Ew.
    exists r. eexists. exists (s_dim s), nz, ia, ja. split; [reflexivity|].
    assert (NZ : nz = nz_of s) by (unfold nz, nz_of; rewrite H4; reflexivity).
    assert (AL' : Allowed (s_dim s) nz ia ja (s_w s)) by (rewrite NZ; exact AL).
    destruct (b_struct _ _ _ _ _ _ _ _ B _ _ _ _ _ _ _ AL' Ew) as [[-> S']| ->].
    + split; auto. split; [reflexivity|]. intros _. split; [exact GA|]. split; [|cbn; rewrite ?Eh; auto 8].
      assert (EIA : ia_ja (set_init (log (set_w s w') (E_struct (s_dim s) nz ia ja SUCCESS)) true) = (ia, ja)) by exact Eia.
      split.
      * unfold str. rewrite EIA. cbn [fst snd set_init log set_w s_w s_dim].
        change (nz_of (set_init (log (set_w s w') (E_struct (s_dim s) nz ia ja SUCCESS)) true)) with (nz_of s). rewrite <- NZ. exact S'.
      * split; [|exact I]. rewrite EIA.
        change (nz_of (set_init (log (set_w s w') (E_struct (s_dim s) nz ia ja SUCCESS)) true)) with (nz_of s). rewrite <- NZ. reflexivity.
    + split; auto. split; [reflexivity|]. discriminate.
  - destruct H5 as (_ & T0 & _ & AL). rewrite H4.
    destruct f as [|hf off] eqn:Ef.
    + (* triplets *)
      unfold ia_ja. cbn [s_fmt s_ir s_jc s_dim s_w s_nzt]. rewrite ?H4.
      destruct (w_struct E (m_dim A) (m_nz A) (map Some (m_ir A)) (map Some (m_jc A)) (s_w s)) as [r w'] eqn:Ew.
      assert (X := b_struct _ _ _ _ _ _ _ _ B _ _ _ _ _ _ _ (AL _ _ _ _) Ew).
      destruct X as [[-> S']| ->].
      * exists SUCCESS. eexists. exists (m_dim A), (m_nz A), (map Some (m_ir A)), (map Some (m_jc A)).
        split; [reflexivity|]. split; auto. split; [reflexivity|]. intros _. cbn [s_init s_have s_atag s_use s_just s_ondemand log set_w].
        split; [|split; [|cbn; auto 10]].
        -- unfold gives. rewrite Ef. cbn. rewrite ?H4. auto.
        -- unfold structured, str, nz_of, ia_ja. rewrite Ef. cbn. rewrite ?H4. cbn. split; [exact S'|auto].
      * exists FATAL_ERROR. eexists. exists (m_dim A), (m_nz A), (map Some (m_ir A)), (map Some (m_jc A)).
        split; [reflexivity|]. split; auto. split; [reflexivity|]. discriminate.
    + (* compressed rows *)
      destruct Hw as (_ & Hv & Hr & Hoff & Hne & Hgap).
      destruct (C13_csr_represents_matrix hf off (m_dim A) (m_ir A) (m_jc A) _ Hoff Hr Hne Hgap (Hsort (CsrModel.entry_list 0 (m_ir A) (m_jc A))))
        as (cv & ia & ja & Ei & Eia & Eja & Enc & Hsh & Hpos & Hconv).
      rewrite Ei. unfold ia_ja. cbn [s_fmt s_ir s_jc s_dim s_w s_nzt s_conv]. rewrite ?H4.
      destruct (w_struct E (m_dim A) (CsrModel.v_nc cv) (CsrModel.v_ia cv) (CsrModel.v_ja cv) (s_w s)) as [r w'] eqn:Ew.
      destruct (b_struct _ _ _ _ _ _ _ _ B _ _ _ _ _ _ _ (AL _ _ _ _) Ew) as [[-> S']| ->].
      * exists SUCCESS. eexists. exists (m_dim A), (CsrModel.v_nc cv), (CsrModel.v_ia cv), (CsrModel.v_ja cv).
        split; [reflexivity|]. split; auto. split; [reflexivity|]. intros _. cbn [s_init s_have s_atag s_use s_just s_ondemand log set_w].
        split; [|split; [|cbn; auto 10]].
        -- unfold gives. rewrite Ef. cbn. rewrite ?H4. repeat (split; [reflexivity|]). exists cv. split; auto.
           intros sc junk Ls Lj. destruct (Hconv R Rplus sc junk) as (out & Eo & Lo & Po & _); auto.
           exists out. split; auto. split; [congruence|]. rewrite Eia, Eja.
           apply (csr_denotes hf off (m_dim A) (m_ir A) (m_jc A) sc ia ja out sc); auto.
        -- unfold structured, str, nz_of, ia_ja. rewrite Ef. cbn. rewrite ?H4. cbn. split; [exact S'|auto].
      * exists FATAL_ERROR. eexists. exists (m_dim A), (CsrModel.v_nc cv), (CsrModel.v_ia cv), (CsrModel.v_ja cv).
        split; [reflexivity|]. split; auto. split; [reflexivity|]. discriminate.
Qed.

(** ** A call of MultiSolve *)
Lemma Forall2_seq (P : list R -> list R -> Prop) (g : nat -> list R) : forall rhsV k0,
  (forall k, (k < length rhsV)%nat -> P (g (k0 + k)%nat) (nth k rhsV [])) -> Forall2 P (map g (seq k0 (length rhsV))) rhsV.
Proof.
  induction rhsV as [|b rhsV IH]; intros k0 H; cbn; constructor.
  - specialize (H 0%nat). rewrite Nat.add_0_r in H. apply H. cbn. lia.
  - apply IH. intros k Hk. specialize (H (Datatypes.S k)). replace (k0 + Datatypes.S k)%nat with (Datatypes.S k0 + k)%nat in H by lia.
    apply H. cbn. lia.
Qed.
Lemma directly_put es pa : calm es -> directly_before usable true (E_put pa :: es).
Proof. destruct es as [|[| |n ia ja []] es]; cbn; auto; tauto. Qed.

Definition same_tag (v : view) (A : smat) : bool := match v_last v with Some C => (m_tag A =? m_tag C)%nat | None => false end.

(* from the point where structure and values are in place *)
Lemma finish_ok v A rhsV fuel new chk n s3 vals :
  wf_smat f A -> Forall (fun b => length b = m_dim A) rhsV -> gives A s3 -> str s3 (s_w s3) -> s_just s3 = false -> fac_ok s3 ->
  s_atag s3 = m_tag A -> s_have s3 = true -> s_init s3 = true -> v_od v = scaling && negb (s_use s3) && s_ondemand s3 ->
  protocol usable (s_ev s3) -> structure (s_ev s3) = Some (s_dim s3, nz_of s3, fst (ia_ja s3), snd (ia_ja s3)) ->
  directly_before usable new (s_ev s3) ->
  Uses (s_w s3) new vals -> denotes f (m_dim A) (fst (ia_ja s3)) (snd (ia_ja s3)) vals (amat s3 (matrix A)) ->
  exists r s',
    match solve_loop E fuel new A (length rhsV) (concat (map (fun b => if s_use s3 then scale_with (s_fac s3) b else b) rhsV)) chk n s3 with
    | None => None
    | Some (None, true, s) => Some (Throw, s)
    | Some (None, false, s) => Some (OutOfFuel, s)
    | Some (Some (SUCCESS, sol), _, s) =>
        let x k := slice (s_dim s) k sol in
        Some (Ret SUCCESS (map (fun k => if s_use s then scale_with (s_fac s) (x k) else x k) (seq 0 (length rhsV))), s)
    | Some (Some (r, _), _, s) => Some (Ret r [], s)
    end = Some (r, s') /\ inv (after_solve usable A r v) s' /\
    (forall sols, r = Ret SUCCESS sols -> Forall2 (fun x b => solves (m_dim A) (matrix A) x b) sols rhsV) /\
    exists es, s_ev s' = es ++ s_ev s3 /\ (forall m i j q, In (E_solve m i j q) es -> m = new) /\
      (forall d nz i j q, ~ In (E_struct d nz i j q) es).
Proof.
  intros Hw HR G S J FO HT HH HI HOD P ST DB U D.
  set (rhs := concat (map (fun b => if s_use s3 then scale_with (s_fac s3) b else b) rhsV)).
  assert (DIM : s_dim s3 = m_dim A) by apply G.
  assert (LB : Forall (fun b => length b = m_dim A) (map (fun b => if s_use s3 then scale_with (s_fac s3) b else b) rhsV)).
  { apply Forall_map. rewrite Forall_forall in *. intros b Hb. specialize (HR b Hb). destruct (s_use s3) eqn:Eu; auto.
    destruct (FO Eu) as [Lf _]. rewrite scale_length; congruence. }
  destruct (loop_ok fuel new A (length rhsV) rhs chk n s3 vals Hw G S) as (o & th & s' & es & EL & K & EV & TH & [FK JK] & HO); auto.
  { unfold rescale. rewrite J. apply andb_false_r. }
  { unfold rhs. rewrite (concat_len (m_dim A)), map_length, DIM; auto. }
  unfold evs_ok in EV. destruct EV as (EV1 & EV2 & EV3 & EV4). destruct (EV4 P ST DB) as (P' & ST' & LAST).
  rewrite EL.
  assert (ES : exists es, s_ev s' = es ++ s_ev s3 /\ (forall m i j q, In (E_solve m i j q) es -> m = new) /\
      (forall d nz i j q, ~ In (E_struct d nz i j q) es)) by (exists es; auto).
  destruct o as [[r rhs']|].
  2:{ destruct th.
      - exists Throw, s'. split; auto. split; [split; [auto|cbn; discriminate]|]. split; [discriminate|auto].
      - exists OutOfFuel, s'. split; auto. split; [split; [auto|cbn; discriminate]|]. split; [discriminate|auto]. }
  destruct (HO r rhs' eq_refl) as ((S' & ID') & NC & US & SU). destruct (LAST r rhs' eq_refl) as [past LP].
  assert (AM : amat s' (matrix A) = amat s3 (matrix A)).
  { unfold amat. rewrite FK. replace (s_use s') with (s_use s3); auto. symmetry. apply K. }
  assert (FO' : fac_ok s').
  { unfold fac_ok in *. rewrite FK. replace (s_use s') with (s_use s3) by (symmetry; apply K). replace (s_dim s') with (s_dim s3) by (symmetry; apply K). auto. }
  assert (INV : inv (View true (Some A) (usable r) (v_od v) false) s').
  { split; auto. intros _. rewrite JK, J. split; auto. split; [discriminate|].
    assert (s_use s' = s_use s3 /\ s_ondemand s' = s_ondemand s3 /\ s_fmt s' = s_fmt s3 /\ s_have s' = s_have s3 /\ s_init s' = s_init s3 /\ s_atag s' = s_atag s3)
      as (-> & -> & -> & -> & -> & ->) by (unfold kept in K; tauto).
    split; [exact HOD|]. split; [apply G|]. rewrite HH, HI. exists A. split; auto. split; [apply (kept_gives A s3 s' K G)|]. split; auto.
    assert (NZ : nz_of s' = nz_of s3) by (unfold nz_of; destruct K as (_ & _ & -> & -> & _); reflexivity).
    assert (DI : s_dim s' = s_dim s3) by apply K.
    split.
    - split; [|exact ID']. split; [exact S'|]. split.
      + rewrite ST', ST, NZ, DI, (kept_ia _ _ K). reflexivity.
      + rewrite LP. cbn. destruct r; auto.
    - cbn [v_good]. intros Hg. split; [eauto 10|]. intros _. split; auto. destruct (US Hg) as (vals' & U' & D').
      exists vals'. split; auto. rewrite (kept_ia _ _ K), AM. exact D'. }
  assert (INV' : inv (after_solve usable A (Ret r []) v) s').
  { destruct r; auto. cbn [after_solve]. split; auto. cbn. discriminate. }
  destruct r; try (eexists; exists s'; split; [reflexivity|]; split; [exact INV'|]; split; [discriminate|exact ES]).
  eexists; exists s'. split; [reflexivity|]. split; [exact INV|]. split; [|exact ES].
  intros sols Q. injection Q as <-. destruct (SU eq_refl) as [L' SOL].
  apply Forall2_seq. intros k Hk. cbn [Nat.add].
  specialize (SOL k Hk). unfold rhs in SOL. rewrite (slice_concat _ _ k) in SOL by (rewrite ?DIM, ?map_length; auto).
  replace (s_use s') with (s_use s3) by (symmetry; apply K). replace (s_dim s') with (s_dim s3) by (symmetry; apply K). rewrite FK.
  rewrite Forall_forall in HR. pose proof (HR _ (nth_In rhsV [] Hk)) as Lb.
  unfold amat in SOL. destruct (s_use s3) eqn:Eu.
  - destruct (FO Eu) as [Lf Nf].
    rewrite (nth_indep _ [] (scale_with (s_fac s3) [])) in SOL by (rewrite map_length; auto).
    rewrite (map_nth (fun b => scale_with (s_fac s3) b)) in SOL.
    apply (solves_scaled (m_dim A) (matrix A) (s_fac s3)); auto; congruence.
  - rewrite map_id in SOL. exact SOL.
Qed.

Lemma solve_ok v s fuel A rhsV chk n : inv v s -> may_solve f v A rhsV ->
  exists r s', multi_solve E scaling sort fuel A rhsV chk n s = Some (r, s') /\ inv (after_solve usable A r v) s' /\
    (forall sols, r = Ret SUCCESS sols -> Forall2 (fun x b => solves (m_dim A) (matrix A) x b) sols rhsV) /\
    exists es, s_ev s' = es ++ s_ev s /\ (forall m i j q, In (E_solve m i j q) es -> m = negb (same_tag v A) || v_pend v) /\
      (s_init s = true -> forall d nz i j q, ~ In (E_struct d nz i j q) es).
Proof.
  intros I0 HM. pose proof HM as (Hon & Hw & HR & HL). pose proof I0 as [P0 I1]. specialize (I1 Hon).
  destruct I1 as (H1 & H2 & H3 & H4 & H5).
  (* the structure stage *)
  assert (ST : exists r s1, (if s_init s then Some (Some SUCCESS, s) else init_structure E scaling sort A s) = Some (Some r, s1) /\
     (r = SUCCESS \/ r = FATAL_ERROR) /\ protocol usable (s_ev s1) /\
     (exists es, s_ev s1 = es ++ s_ev s /\ (forall m i j q, ~ In (E_solve m i j q) es) /\ (s_init s = true -> es = [])) /\
     (r = SUCCESS -> gives A s1 /\ structured s1 /\ s_init s1 = true /\ s_have s1 = true /\ s_atag s1 = s_atag s /\ s_use s1 = s_use s /\
       s_just s1 = s_just s /\ s_ondemand s1 = s_ondemand s /\ (s_init s = true -> s1 = s))).
  { destruct (s_init s) eqn:Ei.
    - exists SUCCESS, s. split; auto. split; auto. split; auto. split; [exists []; split; auto; split; auto; intros ? ? ? ? []|].
      intros _. destruct (s_have s) eqn:Eh; [|destruct H5; discriminate].
      destruct H5 as (C & L & G & T & [S5 _] & _). rewrite L in HL. split; [apply (same_gives A C s); tauto|]. auto 10.
    - destruct (structure_ok v s A rhsV I0 Hon HM Ei) as (r & s1 & d & nz & ia & ja & E1 & R1 & V1 & K1).
      exists r, s1. split; auto. split; auto. split; [rewrite V1; exact P0|].
      split; [exists [E_struct d nz ia ja r]; split; auto; split; [intros m i j q [Q|[]]; discriminate Q|discriminate]|].
      intros Q. specialize (K1 Q). intuition discriminate. }
  destruct ST as (r & s1 & E1 & R1 & P1 & (es1 & V1 & N1 & Z1) & K1).
  unfold multi_solve. rewrite E1. destruct R1 as [-> | ->].
  2:{ exists (Ret FATAL_ERROR []), s1. split; auto. split; [split; [exact P1|cbn; discriminate]|]. split; [discriminate|].
      exists es1. split; auto. split; [intros m i j q Q; destruct (N1 _ _ _ _ Q)|]. intros Q. rewrite (Z1 Q). intros ? ? ? ? ? []. }
  destruct (K1 eq_refl) as (G & (S1 & ST1 & C1) & I2 & HH & T1 & U1 & J1 & O1 & SAME). clear K1.
  rewrite T1.
  assert (NEW : negb (m_tag A =? s_atag s)%nat = negb (same_tag v A)).
  { f_equal. unfold same_tag. destruct (s_have s).
    - destruct H5 as (C & -> & _ & -> & _). reflexivity.
    - destruct H5 as (_ & -> & -> & _). apply Nat.eqb_neq. apply Hw. }
  rewrite NEW. set (new := negb (same_tag v A)) in *.
  change (s_just (set_atag s1 (m_tag A))) with (s_just s1). rewrite J1, H1.
  set (s2 := set_atag s1 (m_tag A)).
  assert (G2 : gives A s2) by exact G.
  assert (S2 : str s2 (s_w s2)) by exact S1.
  destruct (new || v_pend v) eqn:Ec.
  - (* values are given *)
    assert (FO2 : rescale true s2 = false -> fac_ok s2).
    { unfold rescale, fac_ok. cbn [orb]. intros Q Q2. rewrite Q2 in Q. discriminate. }
    destruct (give_ok true A s2 Hw G2 S2 FO2) as (ok & s3 & E3 & K3 & VF & GT). rewrite E3. destruct ok.
    + destruct GT as (w1 & pa & W3 & S3 & L3 & D3 & V3 & F3 & J3 & _); auto.
      assert (JF : s_just s3 = false).
      { rewrite J3. unfold rescale. change (s_use s2) with (s_use s1). change (s_just s2) with (s_just s1). cbn [orb]. rewrite andb_true_r.
        destruct (s_use s1) eqn:Eu; auto. destruct (s_just s1) eqn:Ej; auto.
        assert (s_use s = true) by (apply H2; congruence). congruence. }
      assert (NZ : nz_of s3 = nz_of s2) by (unfold nz_of; destruct K3 as (_ & _ & -> & -> & _); reflexivity).
      assert (DI : s_dim s3 = s_dim s2) by apply K3.
      destruct (finish_ok v A rhsV fuel true chk n s3 pa) as (r & s' & E4 & I4 & X4 & es4 & V4 & N4 & M4); auto.
      * apply (kept_gives A s2 s3 K3 G2).
      * rewrite W3, (kept_str _ _ _ K3). apply put_str; auto.
      * assert (Q : s_atag s3 = s_atag s2) by apply K3. exact Q.
      * assert (Q : s_have s3 = s_have s2) by apply K3. rewrite Q. exact HH.
      * assert (Q : s_init s3 = s_init s2) by apply K3. rewrite Q. exact I2.
      * assert (s_use s3 = s_use s2 /\ s_ondemand s3 = s_ondemand s2) as [-> ->] by (unfold kept in K3; tauto). cbn. rewrite U1, O1. exact H3.
      * rewrite V3. cbn. split; [exact P1|]. exists (s_dim s2), (nz_of s2), (fst (ia_ja s2)), (snd (ia_ja s2)). split; [exact ST1|exact L3].
      * rewrite V3, NZ, DI, (kept_ia _ _ K3). exact ST1.
      * rewrite V3. apply directly_put. exact C1.
      * rewrite W3. destruct (put_fresh s2 w1 pa true S3 L3) as [_ Q]; auto. apply (b_fresh _ _ _ _ _ _ _ _ B _ _ _ _ _ S3).
      * rewrite (kept_ia _ _ K3). exact D3.
      * exists r, s'. split; [exact E4|]. split; auto. split; auto.
        exists (es4 ++ E_put pa :: es1). split.
        { rewrite V4, V3, <- app_assoc. cbn. change (s_ev s2) with (s_ev s1). rewrite V1. reflexivity. }
        split.
        -- intros m i j q Q. apply in_app_iff in Q. destruct Q as [Q|[Q|Q]]; [eauto|discriminate|destruct (N1 _ _ _ _ Q)].
        -- intros Hi d nz i j q Q. apply in_app_iff in Q. rewrite (Z1 Hi) in Q. destruct Q as [Q|[Q|[]]]; [exact (M4 _ _ _ _ _ Q)|discriminate].
    + exists Throw, s3. split; auto. split; [split; [rewrite (VF eq_refl); exact P1|cbn; discriminate]|]. split; [discriminate|].
      exists es1. split; [rewrite (VF eq_refl); exact V1|]. split; [intros m i j q Q; destruct (N1 _ _ _ _ Q)|].
      intros Q. rewrite (Z1 Q). intros ? ? ? ? ? [].
  - (* nothing new *)
    apply orb_false_elim in Ec. destruct Ec as [En Ep]. unfold new in En. apply negb_false_iff in En.
    unfold same_tag in En. destruct (v_last v) as [C|] eqn:EL; [|discriminate]. apply Nat.eqb_eq in En.
    destruct HL as [SS HL]. destruct (HL En) as [<- Hg].
    destruct (s_have s) eqn:Eh; [|destruct H5 as (_ & _ & Q & _); discriminate Q].
    destruct H5 as (C & L & GC & T & H5). injection L as <-.
    destruct (s_init s) eqn:Ei; [|destruct H5; congruence]. destruct H5 as [[S5 _] G5]. destruct (G5 Hg) as [(n0 & ia & ja & q & past & V5 & U5) G6].
    destruct (G6 Ep) as [F6 (vals & U6 & D6)]. pose proof (SAME eq_refl) as Q1; subst s1.
    assert (En' : new = false). { unfold new, same_tag. rewrite EL. rewrite Nat.eqb_refl. reflexivity. }
    rewrite En'.
    destruct (finish_ok v A rhsV fuel false chk n s2 vals) as (r & s' & E4 & I4 & X4 & es4 & V4 & N4 & M4); auto.
    + change (s_just s2) with (s_just s). rewrite H1. exact Ep.
    + change (directly_before usable false (s_ev s)). rewrite V5. cbn. auto.
    + exists r, s'. split; [exact E4|]. split; auto. split; auto. exists es4. split; auto.
Qed.

Theorem hist_inv v s : hist E f usable scaling sort v s -> inv v s.
Proof.
  induction 1 as [w|v s od warm r s' H IH Hw E1|v s fuel A rhsV chk n r s' H IH M E1|v s b s' H IH E1].
  - apply inv_new.
  - eapply inv_init; eauto.
  - destruct (solve_ok v s fuel A rhsV chk n IH M) as (r0 & s0 & E2 & I2 & _). rewrite E2 in E1. injection E1 as <- <-. exact I2.
  - eapply inv_incq; eauto.
Qed.
End M.
