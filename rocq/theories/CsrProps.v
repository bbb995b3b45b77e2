(** C13: the compressed row format represents the triplet matrix. *)
From Coq Require Import List Arith Bool Lia Permutation Sorted.
From Verif Require Import CsrModel CsrSpec CsrProofs CsrFinish CsrFull.
Import ListNotations.

(** what std::sort guarantees: a permutation in which no entry is followed by
    a smaller one *)
Definition std_sorted (l sorted : list entry) : Prop :=
  Permutation l sorted /\ StronglySorted (fun a b => e_lt b a = false) sorted.

(** ** From the triplets to the sorted entries *)
Lemma entry_list_In airn : forall ajcn k0 e, In e (entry_list k0 airn ajcn) <->
  exists k i j, nth_error airn k = Some i /\ nth_error ajcn k = Some j /\ e = e_set i j (k0 + k).
Proof.
  induction airn as [|i airn IH]; intros ajcn k0 e; simpl.
  - split; [intros []|]. intros [k [i [j [H _]]]]. destruct k; discriminate.
  - destruct ajcn as [|j ajcn]; simpl.
    + split; [intros []|]. intros [k [i' [j' [_ [H _]]]]]. destruct k; discriminate.
    + rewrite IH. split.
      * intros [<-|[k [i' [j' [H1 [H2 ->]]]]]].
        -- exists 0, i, j. simpl. rewrite Nat.add_0_r. auto.
        -- exists (S k), i', j'. simpl. rewrite Nat.add_succ_r. auto.
      * intros [[|k] [i' [j' [H1 [H2 ->]]]]]; simpl in *.
        -- left. rewrite Nat.add_0_r. congruence.
        -- right. exists k, i', j'. rewrite Nat.add_succ_r. auto.
Qed.

Lemma entry_list_length airn : forall ajcn k0, length airn = length ajcn ->
  length (entry_list k0 airn ajcn) = length airn.
Proof.
  induction airn as [|i airn IH]; intros [|j ajcn] k0 H; simpl in *; try discriminate; auto.
Qed.

Lemma e_set_pos i j k : e_pos (e_set i j k) = k.
Proof. unfold e_set. destruct (j <? i); reflexivity. Qed.

Lemma e_set_row i j k : e_row (e_set i j k) = Nat.min i j.
Proof. unfold e_set. destruct (Nat.ltb_spec j i); simpl; lia. Qed.
Lemma e_set_col i j k : e_col (e_set i j k) = Nat.max i j.
Proof. unfold e_set. destruct (Nat.ltb_spec j i); simpl; lia. Qed.

Lemma entry_list_pos airn : forall ajcn k0, length airn = length ajcn ->
  map e_pos (entry_list k0 airn ajcn) = seq k0 (length airn).
Proof.
  induction airn as [|i airn IH]; intros [|j ajcn] k0 H; simpl in *; try discriminate; auto.
  rewrite e_set_pos, IH by lia. reflexivity.
Qed.

Section Sorted.
Variables (dim : nat) (airn ajcn : list nat) (sorted : list entry).
Hypothesis Hr : in_range dim airn ajcn.
Hypothesis Hs : std_sorted (entry_list 0 airn ajcn) sorted.

Lemma sorted_In e : In e sorted <->
  exists k i j, nth_error airn k = Some i /\ nth_error ajcn k = Some j /\ e = e_set i j k.
Proof.
  destruct Hs as [Hp _]. rewrite <- (entry_list_In airn ajcn 0 e). split; intros H.
  - eapply Permutation_in; [apply Permutation_sym; exact Hp|auto].
  - eapply Permutation_in; [exact Hp|auto].
Qed.

Lemma sorted_trip i j k : In (Entry (Nat.min i j) (Nat.max i j) k) sorted <-> trip_at airn ajcn i j k.
Proof.
  rewrite sorted_In. unfold trip_at, at_. split.
  - intros [k' [i' [j' [H1 [H2 H3]]]]].
    assert (k = k') by (apply (f_equal e_pos) in H3; rewrite e_set_pos in H3; auto).
    apply (f_equal e_row) in H3 as Hm. apply (f_equal e_col) in H3 as HM.
    rewrite e_set_row in Hm. rewrite e_set_col in HM. simpl in *. subst k'.
    assert ((i' = i /\ j' = j) \/ (i' = j /\ j' = i)) as [[-> ->]|[-> ->]] by lia; auto.
  - intros [[H1 H2]|[H1 H2]].
    + exists k, i, j. split; auto. split; auto. unfold e_set.
      destruct (Nat.ltb_spec j i); f_equal; lia.
    + exists k, j, i. split; auto. split; auto. unfold e_set.
      destruct (Nat.ltb_spec i j); f_equal; lia.
Qed.

Lemma sorted_ok : Forall (eok dim) sorted.
Proof.
  apply Forall_forall. intros e He. apply sorted_In in He. destruct He as [k [i [j [H1 [H2 ->]]]]].
  destruct Hr as [_ [R1 R2]]. rewrite Forall_forall in R1, R2.
  pose proof (R1 i (nth_error_In _ _ H1)). pose proof (R2 j (nth_error_In _ _ H2)).
  unfold eok. rewrite e_set_row, e_set_col. lia.
Qed.

Lemma sorted_length : length sorted = length airn.
Proof.
  destruct Hs as [Hp _]. rewrite <- (Permutation_length Hp). apply entry_list_length. apply Hr.
Qed.

Lemma sorted_pos_nodup : NoDup (map e_pos sorted).
Proof.
  destruct Hs as [Hp _]. eapply Permutation_NoDup; [apply Permutation_map; exact Hp|].
  rewrite entry_list_pos by apply Hr. apply seq_NoDup.
Qed.

Lemma sorted_pos_lt e : In e sorted -> e_pos e < length airn.
Proof.
  intros H. apply sorted_In in H. destruct H as [k [i [j [H1 [H2 ->]]]]]. rewrite e_set_pos.
  apply nth_error_Some. congruence.
Qed.

Lemma row_used r : upper_row_used airn ajcn r <-> exists e, In e sorted /\ e_row e = r.
Proof.
  unfold upper_row_used, at_. split.
  - intros [k [i [j [H1 [H2 ->]]]]]. exists (e_set i j k). split; [|apply e_set_row].
    apply sorted_In. eauto 6.
  - intros [e [He <-]]. apply sorted_In in He. destruct He as [k [i [j [H1 [H2 ->]]]]].
    exists k, i, j. rewrite e_set_row. auto.
Qed.

Lemma nogap_of : no_inner_gap airn ajcn -> nogap sorted.
Proof.
  intros HG.
  assert (HH : forall l a, sorted = a ++ l -> nogap l).
  { induction l as [|e l IH]; intros a E; [exact I|].
    specialize (IH (a ++ [e])). rewrite <- app_assoc in IH. specialize (IH E).
    destruct l as [|e' l]; [exact I|]. split; auto.
    destruct (Nat.le_gt_cases (e_row e') (e_row e + 1)) as [L|L]; auto. exfalso.
    assert (U : upper_row_used airn ajcn (e_row e + 1)).
    { apply (HG (e_row e) (e_row e + 1) (e_row e')); [lia| |]; apply row_used.
      - exists e. split; auto. rewrite E. apply in_or_app; simpl; auto.
      - exists e'. split; auto. rewrite E. apply in_or_app; simpl; auto. }
    apply row_used in U. destruct U as [x [Hx Rx]].
    destruct Hs as [_ SS]. rewrite E in SS, Hx.
    apply SS_app_inv in SS. destruct SS as [_ [SS2 SS3]].
    apply in_app_or in Hx. destruct Hx as [Hx|[<-|[<-|Hx]]]; try lia.
    - specialize (SS3 x e Hx (or_introl eq_refl)). apply nodesc_iff in SS3. lia.
    - inversion SS2 as [|? ? SS4 _]; subst. inversion SS4 as [|? ? _ F]; subst.
      rewrite Forall_forall in F. specialize (F x Hx). apply nodesc_iff in F. lia. }
  apply (HH sorted []). reflexivity.
Qed.
End Sorted.

Lemma gsorted_unique Gs g h : gsorted Gs -> In g Gs -> In h Gs ->
  g_row g = g_row h -> g_col g = g_col h -> g = h.
Proof.
  intros S Hg Hh E1 E2. apply In_nth_error in Hg. apply In_nth_error in Hh.
  destruct Hg as [p Hp]. destruct Hh as [q Hq].
  destruct (Nat.lt_trichotomy p q) as [L|[->|L]].
  - pose proof (SS_nth _ _ S _ _ _ _ L Hp Hq) as X. unfold glt in X. lia.
  - congruence.
  - pose proof (SS_nth _ _ S _ _ _ _ L Hq Hp) as X. unfold glt in X. lia.
Qed.

Lemma ents_In g e : In e (ents g) <-> e_row e = g_row g /\ e_col e = g_col g /\
  In (e_pos e) (g_first g :: g_rest g).
Proof.
  unfold ents. destruct e as [r c p]. simpl. rewrite in_map_iff. split.
  - intros [H|[x [H Hx]]]; injection H as -> -> ->; auto.
  - intros [-> [-> [->|H]]]; auto. right. exists p. auto.
Qed.

Lemma ents_pos Gs : map e_pos (flat_map ents Gs) = flat_map (fun g => g_first g :: g_rest g) Gs.
Proof.
  induction Gs as [|g Gs IH]; simpl; auto. rewrite map_app, IH, map_map. simpl. rewrite map_id. reflexivity.
Qed.

Lemma NoDup_flat_map {A B} (f : A -> list B) l x : NoDup (flat_map f l) -> In x l -> NoDup (f x).
Proof.
  induction l as [|y l IH]; simpl; intros N H; [destruct H|]. destruct H as [<-|H].
  - clear IH. induction (f y) as [|z m IHm]; [constructor|]. simpl in N. inversion N as [|? ? N1 N2]; subst.
    constructor; auto. intros Hz. apply N1. apply in_or_app. auto.
  - apply IH; auto. clear IH. induction (f y) as [|z m IHm]; auto. simpl in N. inversion N; auto.
Qed.

(** The elements of one group are exactly the triplets of its position. *)
Lemma group_triplets dim airn ajcn sorted Gs g i j :
  in_range dim airn ajcn -> std_sorted (entry_list 0 airn ajcn) sorted ->
  flat_map ents Gs = sorted -> gsorted Gs -> In g Gs ->
  g_row g = Nat.min i j -> g_col g = Nat.max i j ->
  triplets_of airn ajcn i j (g_first g :: g_rest g).
Proof.
  intros Hr Hs EG GS Hg R C. split.
  - eapply (NoDup_flat_map (fun g => g_first g :: g_rest g)); [|exact Hg].
    rewrite <- ents_pos, EG. eapply sorted_pos_nodup; eauto.
  - intros k. rewrite <- (sorted_trip airn ajcn sorted Hs), <- EG, in_flat_map. split.
    + intros H. exists g. split; auto. apply ents_In. simpl e_row. simpl e_col. simpl e_pos. auto.
    + intros [h [Hh He]]. apply ents_In in He. simpl in He. destruct He as [E1 [E2 E3]].
      assert (h = g) as -> by (eapply gsorted_unique; eauto; lia). exact E3.
Qed.

(** Elements listed by the converter, in both formats *)
Definition elems (hf : trifull) (dim : nat) (Gs : list grp) : list fent :=
  match hf with Triangular => triL Gs | Full => fullL dim (fents Gs) end.

Lemma elems_iff hf dim Gs i j g : Forall (gok dim) Gs ->
  (In (i, j, g) (elems hf dim Gs) <->
   In g Gs /\ ((i = g_row g /\ j = g_col g) \/
               (hf = Full /\ g_row g <> g_col g /\ i = g_col g /\ j = g_row g))).
Proof.
  intros GO. destruct hf; simpl.
  - unfold triL. rewrite in_map_iff. split.
    + intros [h [H Hh]]. injection H as <- <- <-. auto.
    + intros [Hg [[-> ->]|[? _]]]; [|discriminate]. exists g. auto.
  - rewrite (fullL_In dim Gs GO). unfold fents. rewrite in_flat_map. split.
    + intros [h [Hh H]]. apply fe_In in H. unfold frow, fcol in H. simpl in H.
      destruct H as [-> H]. split; auto. destruct H as [[-> ->]|[? [-> ->]]]; auto.
    + intros [Hg H]. exists g. split; auto. unfold fe. destruct H as [[-> ->]|[_ [N [-> ->]]]]; simpl; auto.
      destruct (Nat.eqb_spec (g_row g) (g_col g)); [congruence|]. simpl. auto.
Qed.

Lemma map_Some_inj (a b : list nat) : map Some a = map Some b -> a = b.
Proof.
  revert b; induction a as [|x a IH]; intros [|y b] H; simpl in H; try discriminate; auto.
  injection H as -> H. f_equal. auto.
Qed.

(** ** The theorem.

    For every triplet matrix without an empty row between non-empty rows of the
    upper triangle, every outcome of std::sort, both formats and both index
    bases: no undefined behaviour occurs; the row pointers and column numbers
    have the documented shape; an element is present exactly where a triplet
    is (upper triangle only in the triangular format); the number returned is
    the number of elements; and converting values puts into each element the
    sum, in some order, of exactly the triplets of its position — for any type
    of numbers with any addition.  In the full format mirrored elements
    receive the same number. *)
Theorem C13_csr_represents_matrix :
  forall (hf : trifull) (off dim : nat) (airn ajcn : list nat) (sorted : list entry),
  off = 0 \/ off = 1 ->
  in_range dim airn ajcn -> airn <> [] -> no_inner_gap airn ajcn ->
  std_sorted (entry_list 0 airn ajcn) sorted ->
  exists (v : conv) (ia ja : list nat),
    initialize hf off dim sorted = Some v /\
    v_ia v = map Some ia /\ v_ja v = map Some ja /\ v_nc v = length ja /\
    csr_shape off dim ia ja /\
    (forall i j, (exists p, csr_pos off ia ja i j p) <->
                 (exists k, trip_at airn ajcn i j k) /\ (hf = Triangular -> i <= j)) /\
    (forall (A : Type) (add : A -> A -> A) (vals junk : list A),
       length vals = length airn -> length junk = v_nc v ->
       exists out, convert_values add v vals junk = Some out /\ length out = length ja /\
         (forall i j p, csr_pos off ia ja i j p ->
            exists k0 ks a0 al,
              triplets_of airn ajcn i j (k0 :: ks) /\
              nth_error vals k0 = Some a0 /\ map (nth_error vals) ks = map Some al /\
              nth_error out p = Some (fold_left add al a0)) /\
         (forall i j p q, csr_pos off ia ja i j p -> csr_pos off ia ja j i q ->
            nth_error out p = nth_error out q)).
Proof.
  intros hf off dim airn ajcn sorted Hoff Hr Hne HG Hs.
  assert (NE : sorted <> []).
  { intros E. pose proof (sorted_length dim airn ajcn sorted Hr Hs) as L. rewrite E in L.
    destruct airn; [congruence|discriminate]. }
  destruct (phase1 hf dim sorted NE (sorted_ok _ _ _ _ Hr Hs) (proj2 Hs) (nogap_of airn ajcn sorted Hs HG))
    as [s [Gs [INV [GS [GO [EG EI]]]]]].
  specialize (EI off).
  assert (Hdim : 1 <= dim).
  { destruct airn as [|i airn']; [congruence|]. destruct Hr as [_ [R _]]. inversion R; subst. lia. }
  (* both formats *)
  assert (HC : exists v DD, initialize hf off dim sorted = Some v /\
     conv_of off dim (elems hf dim Gs) DD v /\
     StronglySorted llt (elems hf dim Gs) /\ Forall (fok dim) (elems hf dim Gs)).
  { rewrite EI. destruct hf.
    - destruct (finish_tri_ok off dim (length sorted) Gs s Hoff INV GO) as [v [E W]]; [rewrite EG; reflexivity|].
      exists v, (dbls 0 Gs). split; auto. split; [exact W|]. split; [apply triL_sorted; auto|apply triL_ok; auto].
    - destruct (finish_full_ok off dim Gs s GS GO (length sorted) INV Hdim) as [v [E W]].
      exists v, (fullD (fents Gs) [] Gs). split; auto. split; [exact W|].
      split; [apply fullL_sorted; auto|apply fullL_ok; auto]. }
  destruct HC as [v [DD [Ev [W [LS LO]]]]].
  set (L := elems hf dim Gs) in *.
  exists v, (map (fun k => rowlt (k + 1) L + off) (seq 0 (dim + 1))), (map (fun x => fcol x - 1 + off) L).
  split; [exact Ev|]. split; [apply (w_ia _ _ _ _ _ W)|]. split; [apply (w_ja _ _ _ _ _ W)|].
  split; [rewrite map_length; apply (w_nc _ _ _ _ _ W)|].
  split; [apply shape_ok; auto|].
  assert (PI : forall i j p, csr_pos off (map (fun k => rowlt (k + 1) L + off) (seq 0 (dim + 1)))
               (map (fun x => fcol x - 1 + off) L) i j p <-> exists g, nth_error L p = Some (i, j, g)).
  { intros. apply pos_iff; auto. }
  assert (KEY : forall i j g, In (i, j, g) L -> In g Gs /\ g_row g = Nat.min i j /\ g_col g = Nat.max i j /\
      (hf = Triangular -> i <= j)).
  { intros i j g H. apply (elems_iff hf dim Gs i j g GO) in H. destruct H as [Hg H].
    rewrite Forall_forall in GO. specialize (GO g Hg). unfold gok in GO.
    destruct H as [[-> ->]|[-> [N [-> ->]]]].
    - repeat split; auto; lia.
    - repeat split; auto; try lia. discriminate. }
  split.
  { intros i j. split.
    - intros [p Hp]. apply PI in Hp. destruct Hp as [g Hp]. apply nth_error_In in Hp.
      destruct (KEY _ _ _ Hp) as [Hg [E1 [E2 E3]]]. split; auto.
      exists (g_first g).
      apply (group_triplets dim airn ajcn sorted Gs g i j Hr Hs EG GS Hg E1 E2). simpl; auto.
    - intros [[k Hk] Htri]. apply (sorted_trip airn ajcn sorted Hs) in Hk. rewrite <- EG in Hk.
      apply in_flat_map in Hk. destruct Hk as [g [Hg He]]. apply ents_In in He. simpl in He.
      destruct He as [E1 [E2 _]].
      assert (HI : In (i, j, g) L).
      { apply (elems_iff hf dim Gs i j g GO). split; auto.
        destruct (Nat.le_gt_cases i j) as [Lij|Lij]; [left; lia|].
        right. destruct hf; [specialize (Htri eq_refl); lia|]. split; auto. lia. }
      apply In_nth_error in HI. destruct HI as [p Hp]. exists p. apply PI. eauto. }
  intros A add vals junk Hv Hj.
  destruct (convert_ok A add off dim L DD v vals junk W) as [out [Eo [Lo Po]]].
  - rewrite Hj. apply (w_nc _ _ _ _ _ W).
  - apply Forall_forall. intros [[i j] g] Hx. simpl. destruct (KEY _ _ _ Hx) as [Hg _].
    apply Forall_forall. intros p Hp. rewrite Hv.
    apply (sorted_pos_lt airn ajcn sorted Hs (Entry (g_row g) (g_col g) p)).
    rewrite <- EG. apply in_flat_map. exists g. split; auto. apply ents_In. auto.
  - exists out. split; auto. split; [rewrite map_length; auto|]. split.
    + intros i j p Hp. apply PI in Hp. destruct Hp as [g Hp].
      destruct (Po p _ Hp) as [a0 [al [A1 [A2 A3]]]]. simpl in A1, A2.
      apply nth_error_In in Hp. destruct (KEY _ _ _ Hp) as [Hg [E1 [E2 _]]].
      exists (g_first g), (g_rest g), a0, al. split; auto.
      apply (group_triplets dim airn ajcn sorted Gs g i j Hr Hs EG GS Hg E1 E2).
    + intros i j p q Hp Hq. apply PI in Hp. apply PI in Hq. destruct Hp as [g Hp]. destruct Hq as [h Hq].
      assert (h = g) as ->.
      { destruct (KEY _ _ _ (nth_error_In _ _ Hp)) as [Hg [E1 [E2 _]]].
        destruct (KEY _ _ _ (nth_error_In _ _ Hq)) as [Hh [F1 [F2 _]]].
        eapply gsorted_unique; eauto; lia. }
      destruct (Po p _ Hp) as [a0 [al [A1 [A2 A3]]]]. destruct (Po q _ Hq) as [b0 [bl [B1 [B2 B3]]]].
      simpl in *. rewrite A3, B3. rewrite A1 in B1. injection B1 as <-.
      assert (al = bl) as ->; auto.
      rewrite A2 in B2. clear - B2. revert bl B2.
      induction al as [|x al IH]; intros [|y bl] H; simpl in H; try discriminate; auto.
      injection H as -> H. f_equal. auto.
Qed.

(** Ipopt's augmented systems list every diagonal position; then there is no gap. *)
Theorem C13_diagonal_excludes_gaps : forall dim airn ajcn,
  in_range dim airn ajcn ->
  (forall r, 1 <= r <= dim -> exists k, at_ airn k r /\ at_ ajcn k r) ->
  no_inner_gap airn ajcn.
Proof.
  intros dim airn ajcn Hr H r1 r r2 Hlt U1 U2.
  assert (B : forall x, upper_row_used airn ajcn x -> 1 <= x <= dim).
  { intros x [k [i [j [E1 [E2 ->]]]]]. destruct Hr as [_ [R1 R2]]. rewrite Forall_forall in R1, R2.
    pose proof (R1 i (nth_error_In _ _ E1)). pose proof (R2 j (nth_error_In _ _ E2)). lia. }
  pose proof (B _ U1). pose proof (B _ U2).
  destruct (H r ltac:(lia)) as [k [E1 E2]]. exists k, r, r. split; auto. split; auto. lia.
Qed.

(** Without entries, the arrays stay NULL and nothing is converted. *)
Theorem C13_empty_matrix : forall hf off dim (A : Type) (add : A -> A -> A) vals,
  exists v, initialize hf off dim [] = Some v /\ v_nc v = 0 /\ convert_values add v vals [] = Some [].
Proof. intros. eexists. split; [reflexivity|]. split; reflexivity. Qed.

(** The hypothesis about gaps is needed: for the 3x3 matrix with entries (1,1)
    and (3,3) only, the converter reports an element at row 2, column 3, where
    the matrix has none, and none at (3,3). *)
Theorem C13_inner_gap_refuted :
  ~ (forall (hf : trifull) (off dim : nat) (airn ajcn : list nat) (sorted : list entry),
      off = 0 \/ off = 1 -> in_range dim airn ajcn -> airn <> [] ->
      std_sorted (entry_list 0 airn ajcn) sorted ->
      exists (v : conv) (ia ja : list nat),
        initialize hf off dim sorted = Some v /\ v_ia v = map Some ia /\ v_ja v = map Some ja /\
        (forall i j p, csr_pos off ia ja i j p -> exists k, trip_at airn ajcn i j k)).
Proof.
  intros H.
  destruct (H Triangular 0 3 [1; 3] [1; 3] [Entry 1 1 0; Entry 3 3 1]) as [v [ia [ja [E [E1 [E2 P]]]]]].
  - auto.
  - split; auto. split; repeat constructor.
  - discriminate.
  - split; [apply Permutation_refl|]. repeat constructor.
  - vm_compute in E. injection E as <-. simpl in E1, E2.
    assert (ia = [0; 1; 2; 2]) as -> by (apply map_Some_inj; symmetry; exact E1).
    assert (ja = [0; 2]) as -> by (apply map_Some_inj; symmetry; exact E2).
    destruct (P 2 3 1) as [k Hk].
    + split; [lia|]. split; [lia|]. exists 1, 2. repeat split; auto.
    + unfold trip_at, at_ in Hk. destruct k as [|[|k]]; simpl in Hk.
      * destruct Hk as [[? _]|[? _]]; discriminate.
      * destruct Hk as [[? _]|[_ ?]]; discriminate.
      * destruct Hk as [[? _]|[? _]]; destruct k; discriminate.
Qed.

(** A case that meets the hypotheses: 4x4, first and last row empty in the
    upper triangle, repeated and lower-triangular entries, unsorted. *)
Definition ex_irn := [3; 2; 3; 2; 3].
Definition ex_jcn := [2; 2; 3; 3; 2].
Definition ex_sorted := [Entry 2 2 1; Entry 2 3 4; Entry 2 3 0; Entry 2 3 3; Entry 3 3 2].

Example C13_example_hyps : in_range 4 ex_irn ex_jcn /\ no_inner_gap ex_irn ex_jcn /\
  std_sorted (entry_list 0 ex_irn ex_jcn) ex_sorted.
Proof.
  split; [|split].
  - split; auto. split; repeat constructor.
  - intros r1 r r2 Hlt [k1 [i1 [j1 [A1 [B1 C1]]]]] [k2 [i2 [j2 [A2 [B2 C2]]]]]. exfalso.
    unfold at_, ex_irn, ex_jcn in *.
    do 5 (destruct k1 as [|k1]; [do 5 (destruct k2 as [|k2];
      [simpl in *; injection A1 as <-; injection B1 as <-; injection A2 as <-; injection B2 as <-; simpl in *; lia|]);
      destruct k2; discriminate|]).
    destruct k1; discriminate.
  - split.
    + unfold ex_irn, ex_jcn, ex_sorted. simpl. unfold e_set; simpl.
      apply Permutation_trans with [Entry 2 2 1; Entry 2 3 0; Entry 3 3 2; Entry 2 3 3; Entry 2 3 4];
        [apply perm_swap|]. constructor.
      change [Entry 2 3 0; Entry 3 3 2; Entry 2 3 3; Entry 2 3 4] with
        ([Entry 2 3 0; Entry 3 3 2; Entry 2 3 3] ++ [Entry 2 3 4]).
      apply Permutation_trans with ([Entry 2 3 4] ++ [Entry 2 3 0; Entry 3 3 2; Entry 2 3 3]);
        [apply Permutation_app_comm|]. simpl. constructor. constructor. apply perm_swap.
    + unfold ex_sorted. repeat (constructor; [|repeat constructor]). constructor.
Qed.

Example C13_example_run : exists v, initialize Full 1 4 ex_sorted = Some v /\
  v_ia v = map Some [1; 1; 3; 5; 5] /\ v_ja v = map Some [2; 3; 2; 3] /\
  convert_values Nat.add v [1; 2; 4; 8; 16] [0; 0; 0; 0] = Some [2; 25; 25; 4].
Proof. eexists. vm_compute. repeat split. Qed.

Print Assumptions C13_csr_represents_matrix.
