(** Phase 2 of the converter: the final arrays of both formats, and the
    conversion of values. *)
From Coq Require Import List Arith Bool Lia Permutation Sorted.
From Verif Require Import CsrModel CsrSpec CsrProofs.
Import ListNotations.

Notation fent := (nat * nat * grp)%type.

Definition rowlt (r : nat) (l : list fent) : nat := length (filter (fun x => frow x <? r) l).

Definition llt (x y : fent) : Prop := frow x < frow y \/ (frow x = frow y /\ fcol x < fcol y).

Definition fok (dim : nat) (x : fent) : Prop := 1 <= frow x <= dim /\ 1 <= fcol x <= dim.

(** What both formats produce: elements [L] in order, additions [DD]. *)
Record conv_of (off dim : nat) (L : list fent) (DD : list (nat * nat)) (v : conv) : Prop := {
  w_ia : v_ia v = map Some (map (fun k => rowlt (k + 1) L + off) (seq 0 (dim + 1)));
  w_ja : v_ja v = map Some (map (fun x => fcol x - 1 + off) L);
  w_ipf : v_ipf v = map Some (map (fun x => g_first (snd x)) L);
  w_nc : v_nc v = length L;
  w_nd : v_nd v = length DD;
  w_dt : v_dt v = map Some (map fst DD);
  w_dc : v_dc v = map Some (map snd DD);
  w_dd : forall p x, nth_error L p = Some x ->
           map fst (filter (fun d => snd d =? p) DD) = g_rest (snd x);
  w_bd : Forall (fun d => snd d < length L) DD
}.

Lemma rowlt_app r a b : rowlt r (a ++ b) = rowlt r a + rowlt r b.
Proof. unfold rowlt. rewrite filter_app, app_length. reflexivity. Qed.

Lemma rowlt_S r l : rowlt (r + 1) l = rowlt r l + rowcnt r l.
Proof.
  unfold rowlt, rowcnt. induction l as [|x l IH]; simpl; auto.
  destruct (Nat.ltb_spec (frow x) (r + 1)); destruct (Nat.ltb_spec (frow x) r);
    destruct (Nat.eqb_spec (frow x) r); simpl; lia.
Qed.

Lemma rowlt_1 l : Forall (fun x => 1 <= frow x) l -> rowlt 1 l = 0.
Proof.
  intros H. unfold rowlt. induction H as [|x l Hx _ IH]; simpl; auto.
  destruct (Nat.ltb_spec (frow x) 1); [lia|]. auto.
Qed.

Lemma rowlt_mono r r' l : r <= r' -> rowlt r l <= rowlt r' l.
Proof.
  intros H. unfold rowlt. induction l as [|x l IH]; simpl; auto.
  destruct (Nat.ltb_spec (frow x) r); destruct (Nat.ltb_spec (frow x) r'); simpl; lia.
Qed.

Lemma rowlt_all r l : Forall (fun x => frow x < r) l -> rowlt r l = length l.
Proof.
  intros H. unfold rowlt. induction H as [|x l Hx _ IH]; simpl; auto.
  destruct (Nat.ltb_spec (frow x) r); [simpl; lia|lia].
Qed.

Lemma filter_length_le {A} (f : A -> bool) l : length (filter f l) <= length l.
Proof. induction l as [|x l IH]; simpl; auto. destruct (f x); simpl; lia. Qed.

Lemma rowlt_le r l : rowlt r l <= length l.
Proof. apply filter_length_le. Qed.

Lemma rowlt_cut l : StronglySorted llt l -> forall p x r, nth_error l p = Some x ->
  (p < rowlt r l <-> frow x < r).
Proof.
  induction 1 as [|y l Hl IH Hy]; intros p x r E; [destruct p; discriminate|].
  assert (Hy' : forall z, In z l -> frow y <= frow z).
  { intros z Hz. rewrite Forall_forall in Hy. destruct (Hy z Hz) as [?|[? ?]]; lia. }
  unfold rowlt in *. simpl. destruct p as [|p]; simpl in E.
  - injection E as <-. destruct (Nat.ltb_spec (frow y) r) as [L|L]; simpl; [lia|].
    replace (length (filter (fun x => frow x <? r) l)) with 0; [lia|].
    symmetry. apply (f_equal (@length _)) with (y := @nil fent).
    clear - Hy' L. induction l as [|z l IH]; simpl; auto.
    destruct (Nat.ltb_spec (frow z) r) as [K|K].
    + specialize (Hy' z (or_introl eq_refl)). lia.
    + apply IH. intros; apply Hy'; simpl; auto.
  - specialize (IH p x r E). destruct (Nat.ltb_spec (frow y) r) as [L|L]; simpl; [lia|].
    assert (Hx : frow y <= frow x) by (apply Hy'; eapply nth_error_In; eauto).
    split; intros; lia.
Qed.

(** ** Values *)
Section Vals.
Variables (A : Type) (add : A -> A -> A).

Lemma vset_ok (a : list A) i x : i < length a -> vset a i x = Some (upd a i x).
Proof. intros H. unfold vset. destruct (Nat.ltb_spec i (length a)); [auto|lia]. Qed.

Lemma nth_error_seqlen {B} (l : list B) i : i < length l -> exists x, nth_error l i = Some x.
Proof. intros H. destruct (nth_error l i) eqn:E; eauto. apply nth_error_None in E. lia. Qed.

Lemma aget_map l i x : nth_error l i = Some x -> aget (map Some l) i = Some x.
Proof. intros H. unfold aget. rewrite nth_error_map, H. reflexivity. Qed.

Definition triplets_of_grp (g : grp) : list nat := g_first g :: g_rest g.

Lemma convert_ok off dim L DD v (at_ ac : list A) :
  conv_of off dim L DD v -> length ac = length L ->
  Forall (fun x => Forall (fun p => p < length at_) (g_first (snd x) :: g_rest (snd x))) L ->
  exists out, convert_values add v at_ ac = Some out /\ length out = length L /\
    forall p x, nth_error L p = Some x ->
      exists a0 al, nth_error at_ (g_first (snd x)) = Some a0 /\
        map (nth_error at_) (g_rest (snd x)) = map Some al /\
        nth_error out p = Some (fold_left add al a0).
Proof.
  intros W Hac HB. destruct W. unfold convert_values.
  assert (HB' : forall p x, nth_error L p = Some x ->
     exists a0, nth_error at_ (g_first (snd x)) = Some a0).
  { intros p x E. apply nth_error_In in E. rewrite Forall_forall in HB. specialize (HB x E).
    inversion HB; subst. apply nth_error_seqlen; auto. }
  destruct (for_loop_inv (fun i (a : list A) => length a = length L /\
     forall k x, k < i -> nth_error L k = Some x -> nth_error a k = nth_error at_ (g_first (snd x)))
    (fun i a => p <- aget (v_ipf v) i ;; x <- vget at_ p ;; vset a i x) (v_nc v) 0 ac)
   as [a1 [E1 [L1 P1]]].
  { intros i s Hi [Ls Ps]. rewrite w_nc0 in Hi.
    destruct (nth_error_seqlen L i ltac:(lia)) as [x Ex].
    rewrite w_ipf0. rewrite (aget_map (map (fun x => g_first (snd x)) L) i (g_first (snd x))).
    2: { rewrite nth_error_map, Ex. reflexivity. }
    destruct (HB' _ _ Ex) as [a0 Ea]. unfold vget. rewrite Ea. rewrite vset_ok by lia.
    eexists. split; [reflexivity|]. rewrite upd_length. split; auto.
    intros k y Hk Ey. destruct (Nat.eq_dec k i) as [->|N].
    - rewrite Ex in Ey. injection Ey as <-. rewrite nth_upd_same by lia. auto.
    - rewrite nth_upd_other by auto. apply Ps; auto. lia. }
  { split; auto. intros; lia. }
  simpl in *. rewrite E1.
  assert (HBD : forall d, In d DD -> exists a0, nth_error at_ (fst d) = Some a0).
  { intros d Hd. rewrite Forall_forall in w_bd0. specialize (w_bd0 d Hd).
    destruct (nth_error_seqlen L (snd d) w_bd0) as [x Ex].
    pose proof (w_dd0 _ _ Ex) as Hr.
    assert (In (fst d) (g_rest (snd x))).
    { rewrite <- Hr. apply in_map. apply filter_In. split; auto. apply Nat.eqb_refl. }
    rewrite Forall_forall in HB. specialize (HB x (nth_error_In _ _ Ex)).
    inversion HB as [|? ? _ HB2]; subst. rewrite Forall_forall in HB2.
    apply nth_error_seqlen. auto. }
  destruct (for_loop_inv (fun i (a : list A) => length a = length L /\
     forall p x, nth_error L p = Some x -> exists a0 al, nth_error at_ (g_first (snd x)) = Some a0 /\
        map (nth_error at_) (map fst (filter (fun d => snd d =? p) (firstn i DD))) = map Some al /\
        nth_error a p = Some (fold_left add al a0))
    (fun i a => q <- aget (v_dc v) i ;; p <- aget (v_dt v) i ;;
          x <- vget at_ p ;; y <- vget a q ;; vset a q (add y x)) (v_nd v) 0 a1)
   as [a2 [E2 [L2 P2]]].
  { intros i s Hi [Ls Ps]. rewrite w_nd0 in Hi.
    destruct (nth_error_seqlen DD i ltac:(lia)) as [d Ed].
    rewrite w_dc0, w_dt0.
    rewrite (aget_map (map snd DD) i (snd d)) by (rewrite nth_error_map, Ed; reflexivity).
    rewrite (aget_map (map fst DD) i (fst d)) by (rewrite nth_error_map, Ed; reflexivity).
    destruct (HBD d (nth_error_In _ _ Ed)) as [a0 Ea]. unfold vget. rewrite Ea.
    assert (Hq : snd d < length L).
    { rewrite Forall_forall in w_bd0. apply w_bd0. eapply nth_error_In; eauto. }
    destruct (nth_error_seqlen s (snd d) ltac:(lia)) as [y Ey]. rewrite Ey.
    rewrite vset_ok by lia. eexists. split; [reflexivity|]. rewrite upd_length. split; auto.
    intros p x Ex. destruct (Ps p x Ex) as [b0 [al [B1 [B2 B3]]]].
    assert (EF : firstn (S i) DD = firstn i DD ++ [d]).
    { clear - Ed. revert i Ed. induction DD as [|e DD IH]; intros [|i] Ed; simpl in *; try discriminate.
      - injection Ed as <-. reflexivity.
      - rewrite <- IH; auto. }
    rewrite EF, filter_app, !map_app. simpl.
    destruct (Nat.eqb_spec (snd d) p) as [q|q].
    - exists b0, (al ++ [a0]). split; auto. split.
      + rewrite map_app, <- B2. simpl. rewrite Ea. reflexivity.
      + rewrite q. rewrite nth_upd_same by lia. rewrite fold_left_app. simpl.
        subst p. congruence.
    - exists b0, al. split; auto. split.
      + rewrite app_nil_r. auto.
      + rewrite nth_upd_other by auto. auto. }
  { split; auto. intros p x Ex. destruct (HB' _ _ Ex) as [a0 Ea]. exists a0, []. split; auto.
    split; auto. simpl. rewrite <- Ea. apply P1; auto. rewrite w_nc0. apply nth_error_Some. congruence. }
  simpl in E2. exists a2. split; auto. split; auto. intros p x Ex.
  destruct (P2 p x Ex) as [a0 [al [Q1 [Q2 Q3]]]]. exists a0, al. split; auto. split; auto.
  simpl in Q2. rewrite w_nd0, firstn_all in Q2. rewrite (w_dd0 _ _ Ex) in Q2. auto.
Qed.
End Vals.

(** ** Shape *)
Lemma nth_error_seq0 n k : k < n -> nth_error (seq 0 n) k = Some k.
Proof.
  intros H. rewrite (nth_error_nth' _ 0) by (rewrite seq_length; lia).
  rewrite seq_nth by lia. reflexivity.
Qed.

Lemma at_ia off dim L k a : at_ (map (fun k => rowlt (k + 1) L + off) (seq 0 (dim + 1))) k a ->
  k <= dim /\ a = rowlt (k + 1) L + off.
Proof.
  unfold at_. intros H. rewrite nth_error_map in H.
  destruct (Nat.lt_ge_cases k (dim + 1)) as [l|l].
  - rewrite nth_error_seq0 in H by auto. simpl in H. injection H as <-. lia.
  - rewrite (proj2 (nth_error_None _ _)) in H by (rewrite seq_length; lia). discriminate.
Qed.

Lemma at_ia' off dim L k : k <= dim ->
  at_ (map (fun k => rowlt (k + 1) L + off) (seq 0 (dim + 1))) k (rowlt (k + 1) L + off).
Proof. intros H. unfold at_. rewrite nth_error_map, nth_error_seq0 by lia. reflexivity. Qed.

Lemma at_ja off L p c : at_ (map (fun x => fcol x - 1 + off) L) p c ->
  exists x, nth_error L p = Some x /\ c = fcol x - 1 + off.
Proof.
  unfold at_. rewrite nth_error_map. destruct (nth_error L p) as [x|]; [|discriminate].
  simpl. intros H. injection H as <-. eauto.
Qed.

Lemma SS_nth {A} (R : A -> A -> Prop) l : StronglySorted R l -> forall p q x y,
  p < q -> nth_error l p = Some x -> nth_error l q = Some y -> R x y.
Proof.
  induction 1 as [|z l Hl IH Hz]; intros p q x y Hpq Ex Ey; [destruct p; discriminate|].
  destruct q as [|q]; [lia|]. simpl in Ey. destruct p as [|p]; simpl in Ex.
  - injection Ex as <-. rewrite Forall_forall in Hz. apply Hz. eapply nth_error_In; eauto.
  - eapply IH; [|eauto|eauto]. lia.
Qed.

Lemma shape_ok off dim L : StronglySorted llt L -> Forall (fok dim) L ->
  csr_shape off dim (map (fun k => rowlt (k + 1) L + off) (seq 0 (dim + 1)))
                    (map (fun x => fcol x - 1 + off) L).
Proof.
  intros SS OK. unfold csr_shape.
  assert (R1 : rowlt 1 L = 0).
  { apply rowlt_1. eapply Forall_impl; [|exact OK]. unfold fok; simpl; intros; lia. }
  assert (R2 : rowlt (dim + 1) L = length L).
  { apply rowlt_all. eapply Forall_impl; [|exact OK]. unfold fok; simpl; intros; lia. }
  repeat split.
  - rewrite map_length, seq_length. reflexivity.
  - unfold at_. rewrite nth_error_map, nth_error_seq0 by lia. simpl. rewrite R1. reflexivity.
  - unfold at_. rewrite nth_error_map, nth_error_seq0 by lia. simpl. rewrite R2, map_length. f_equal. lia.
  - intros r a b Ha Hb. apply at_ia in Ha. apply at_ia in Hb. destruct Ha as [_ ->]. destruct Hb as [_ ->].
    pose proof (rowlt_mono (r + 1) (r + 1 + 1) L ltac:(lia)). lia.
  - apply in_map_iff in H. destruct H as [x [<- Hx]]. lia.
  - apply in_map_iff in H. destruct H as [x [<- Hx]].
    rewrite Forall_forall in OK. specialize (OK x Hx). unfold fok in OK. lia.
  - intros r a b p q c d Ha Hb Hp Hpq Hq Hc Hd. apply at_ia in Ha. apply at_ia in Hb.
    destruct Ha as [_ ->]. destruct Hb as [_ ->].
    apply at_ja in Hc. apply at_ja in Hd. destruct Hc as [x [Ex ->]]. destruct Hd as [y [Ey ->]].
    assert (Hx : ~ frow x < r + 1) by (rewrite <- (rowlt_cut L SS p x (r + 1) Ex); lia).
    assert (Hy : frow y < r + 1 + 1) by (rewrite <- (rowlt_cut L SS q y (r + 1 + 1) Ey); lia).
    pose proof (SS_nth _ _ SS p q x y Hpq Ex Ey) as Hxy.
    rewrite Forall_forall in OK. pose proof (OK x (nth_error_In _ _ Ex)).
    pose proof (OK y (nth_error_In _ _ Ey)). unfold fok, llt in *. lia.
Qed.

Lemma pos_iff off dim L i j p : StronglySorted llt L -> Forall (fok dim) L ->
  (csr_pos off (map (fun k => rowlt (k + 1) L + off) (seq 0 (dim + 1)))
               (map (fun x => fcol x - 1 + off) L) i j p <->
   exists g, nth_error L p = Some (i, j, g)).
Proof.
  intros SS OK. split.
  - intros [Hi [Hj [a [b [Ha [Hb [Hab Hp]]]]]]].
    apply at_ia in Ha. apply at_ia in Hb. destruct Ha as [La ->]. destruct Hb as [Lb ->].
    apply at_ja in Hp. destruct Hp as [x [Ex Ec]].
    assert (Hx : ~ frow x < i - 1 + 1) by (rewrite <- (rowlt_cut L SS p x _ Ex); lia).
    assert (Hy : frow x < i + 1) by (rewrite <- (rowlt_cut L SS p x _ Ex); lia).
    rewrite Forall_forall in OK. pose proof (OK x (nth_error_In _ _ Ex)) as Ox. unfold fok in Ox.
    destruct x as [[r c] g]. unfold frow, fcol in *. simpl in *.
    exists g. rewrite Ex. do 2 f_equal. f_equal; lia.
  - intros [g E].
    rewrite Forall_forall in OK. pose proof (OK _ (nth_error_In _ _ E)) as Ox.
    unfold fok, frow, fcol in Ox; simpl in Ox.
    split; [lia|]. split; [lia|].
    exists (rowlt (i - 1 + 1) L + off), (rowlt (i + 1) L + off).
    split; [apply at_ia'; lia|]. split; [apply at_ia'; lia|]. split.
    + assert (Hx : ~ p < rowlt (i - 1 + 1) L)
        by (rewrite (rowlt_cut L SS p _ _ E); unfold frow; simpl; lia).
      assert (Hy : p < rowlt (i + 1) L)
        by (rewrite (rowlt_cut L SS p _ _ E); unfold frow; simpl; lia).
      lia.
    + unfold at_. rewrite nth_error_map, E. unfold fcol; simpl. reflexivity.
Qed.

(** ** Triangular format *)
Definition triL (Gs : list grp) : list fent := map (fun g => (g_row g, g_col g, g)) Gs.

Lemma rowlt_triL k Gs : rowlt (k + 1) (triL Gs) = cnt_le k Gs.
Proof.
  unfold rowlt, cnt_le, triL. induction Gs as [|g Gs IH]; simpl; auto. unfold frow at 1; simpl.
  destruct (Nat.ltb_spec (g_row g) (k + 1)); destruct (Nat.leb_spec (g_row g) k); simpl; lia.
Qed.

Lemma dbls_bound k Gs : Forall (fun d => k <= snd d < k + length Gs) (dbls k Gs).
Proof.
  revert k; induction Gs as [|g Gs IH]; intros k; simpl; [constructor|].
  apply Forall_app; split.
  - apply Forall_forall. intros d Hd. apply in_map_iff in Hd. destruct Hd as [p [<- _]]. simpl. lia.
  - eapply Forall_impl; [|apply IH]. simpl. intros; lia.
Qed.

Lemma filter_none {A} (f : A -> bool) l : (forall x, In x l -> f x = false) -> filter f l = [].
Proof.
  induction l as [|x l IH]; intros H; simpl; auto. rewrite H by (simpl; auto).
  apply IH. intros; apply H; simpl; auto.
Qed.

Lemma filter_all {A} (f : A -> bool) l : (forall x, In x l -> f x = true) -> filter f l = l.
Proof.
  induction l as [|x l IH]; intros H; simpl; auto. rewrite H by (simpl; auto).
  f_equal. apply IH. intros; apply H; simpl; auto.
Qed.

Lemma dbls_filter Gs : forall k p g, nth_error Gs p = Some g ->
  map fst (filter (fun d => snd d =? k + p) (dbls k Gs)) = g_rest g.
Proof.
  induction Gs as [|h Gs IH]; intros k p g E; [destruct p; discriminate|].
  simpl. rewrite filter_app, map_app. destruct p as [|p]; simpl in E.
  - injection E as <-. rewrite Nat.add_0_r.
    rewrite (filter_none _ (dbls (S k) Gs)).
    2: { intros d Hd. pose proof (dbls_bound (S k) Gs) as B. rewrite Forall_forall in B.
         specialize (B d Hd). apply Nat.eqb_neq. lia. }
    rewrite filter_all.
    2: { intros d Hd. apply in_map_iff in Hd. destruct Hd as [q [<- _]]. apply Nat.eqb_refl. }
    simpl. rewrite app_nil_r, map_map. simpl. apply map_id.
  - rewrite filter_none.
    2: { intros d Hd. apply in_map_iff in Hd. destruct Hd as [q [<- _]]. apply Nat.eqb_neq. simpl. lia. }
    simpl. replace (k + S p) with (S k + p) by lia. apply IH. auto.
Qed.

Lemma nth_has {A} (l : list A) (d : A) : forall i, i < length l -> nth_error l i = Some (nth i l d).
Proof. intros. apply nth_error_nth'. auto. Qed.

Lemma finish_tri_ok off dim nz Gs s : off = 0 \/ off = 1 ->
  inv2 Triangular dim nz Gs s -> Forall (gok dim) Gs ->
  nz = length (flat_map ents Gs) ->
  exists v, finish_tri off dim nz s = Some v /\ conv_of off dim (triL Gs) (dbls 0 Gs) v.
Proof.
  intros Hoff I GO Hnz. destruct I as [j_nc0 j_lia0 j_ja0 j_idb0 j_d0 j_ia0 j_ncf0 j_idbf0 j_rc0]. unfold finish_tri.
  assert (Hja : forall i, i < nc s -> exists x, has (ja_tmp s) i x).
  { intros i Hi. destruct (nth_error_seqlen Gs i ltac:(lia)) as [g Eg].
    destruct (j_ja0 _ _ Eg). eauto. }
  assert (Hip : forall i, i < nc s -> exists x, has (ipf_tmp s) i x).
  { intros i Hi. destruct (nth_error_seqlen Gs i ltac:(lia)) as [g Eg].
    destruct (j_ja0 _ _ Eg). eauto. }
  assert (Hja1 : exists ja1 ia1,
    (if off =? 0 then
       ja1 <- acopy (nc s) (fun x => x - 1) (ja_tmp s) (anew (nc s)) ;; Some (ja1, ia s)
     else
       ja1 <- acopy (nc s) (fun x => x) (ja_tmp s) (anew (nc s)) ;;
       ia1 <- for_loop (dim + 1) 0 (fun i a => ainc a i) (ia s) ;;
       Some (ja1, ia1)) = Some (ja1, ia1) /\
    length ja1 = nc s /\ length ia1 = dim + 1 /\
    (forall i g, nth_error Gs i = Some g -> has ja1 i (g_col g - 1 + off)) /\
    (forall k, k <= dim -> has ia1 k (cnt_le k Gs + off))).
  { destruct Hoff as [-> | ->]; simpl Nat.eqb; cbv iota.
    - destruct (acopy_ok (nc s) (fun x => x - 1) (ja_tmp s) (anew (nc s))) as [ja1 [E [L P]]];
        [rewrite anew_length; lia|auto|].
      rewrite E. do 2 eexists. split; [reflexivity|]. rewrite L, anew_length. split; auto. split; auto. split.
      + intros i g Eg. destruct (j_ja0 _ _ Eg) as [X _]. rewrite Nat.add_0_r. apply (P i (g_col g)); auto.
        rewrite j_nc0. apply nth_error_Some. congruence.
      + intros k Hk. rewrite Nat.add_0_r. auto.
    - destruct (acopy_ok (nc s) (fun x => x) (ja_tmp s) (anew (nc s))) as [ja1 [E [L P]]];
        [rewrite anew_length; lia|auto|].
      rewrite E.
      destruct (for_loop_inv (S:=arr) (fun i a => length a = dim + 1 /\
          (forall k, k < i -> has a k (cnt_le k Gs + 1)) /\
          (forall k, i <= k <= dim -> has a k (cnt_le k Gs))) (fun i a => ainc a i) (dim + 1) 0 (ia s))
        as [ia1 [E2 [L2 [P2 _]]]].
      { intros i a Hi [La [Pa Qa]]. destruct (ainc_ok a i _ (Qa i ltac:(lia))) as [a' [Ea [La' [Sa Oa]]]].
        exists a'. split; auto. split; [lia|]. split.
        - intros k Hk. destruct (Nat.eq_dec k i) as [->|N]; [rewrite Nat.add_1_r; auto|].
          apply Oa; auto. apply Pa. lia.
        - intros k Hk. apply Oa; [lia|]. apply Qa. lia. }
      { split; auto. split; [intros; lia|]. intros; apply j_ia0; lia. }
      rewrite E2. do 2 eexists. split; [reflexivity|]. rewrite L, anew_length. split; auto. split; auto. split.
      + intros i g Eg. destruct (j_ja0 _ _ Eg) as [X _].
        rewrite Forall_forall in GO. pose proof (GO g (nth_error_In _ _ Eg)) as Og. unfold gok in Og.
        replace (g_col g - 1 + 1) with (g_col g) by lia. apply (P i (g_col g)); auto.
        rewrite j_nc0. apply nth_error_Some. congruence.
      + intros k Hk. apply P2. lia. }
  destruct Hja1 as [ja1 [ia1 [E1 [L1 [L2 [P1 P2]]]]]]. rewrite E1. clear E1.
  destruct (acopy_ok (nc s) (fun x => x) (ipf_tmp s) (anew (nc s))) as [ip1 [E3 [L3 P3]]];
    [rewrite anew_length; lia|auto|]. rewrite E3.
  assert (Hd : forall i, i < idb s -> exists p q, nth_error (dbls 0 Gs) i = Some (p, q)).
  { intros i Hi. destruct (nth_error_seqlen (dbls 0 Gs) i ltac:(lia)) as [[p q] E]. eauto. }
  destruct (acopy_ok (idb s) (fun x => x) (dt_tmp s) (anew (idb s))) as [dt1 [E4 [L4 P4]]].
  { rewrite anew_length; lia. }
  { intros i Hi. destruct (Hd i Hi) as [p [q E]]. destruct (j_d0 _ _ _ E). eauto. }
  rewrite E4.
  destruct (acopy_ok (idb s) (fun x => x) (dc_tmp s) (anew (idb s))) as [dc1 [E5 [L5 P5]]].
  { rewrite anew_length; lia. }
  { intros i Hi. destruct (Hd i Hi) as [p [q E]]. destruct (j_d0 _ _ _ E). eauto. }
  rewrite E5.
  eexists. split; [reflexivity|].
  rewrite anew_length in *.
  constructor; cbn [v_ia v_ja v_ipf v_dt v_dc v_nc v_nd].
  - apply arr_ext; auto. intros i Hi. rewrite rowlt_triL. apply P2. lia.
  - replace (map (fun x => fcol x - 1 + off) (triL Gs)) with (map (fun g => g_col g - 1 + off) Gs)
      by (unfold triL; rewrite map_map; reflexivity).
    apply arr_list; auto. lia.
  - replace (map (fun x => g_first (snd x)) (triL Gs)) with (map g_first Gs)
      by (unfold triL; rewrite map_map; reflexivity).
    apply arr_list; [lia|].
    intros i g Eg. apply P3; [|apply j_ja0; auto]. rewrite j_nc0. apply nth_error_Some. congruence.
  - unfold triL. rewrite map_length. auto.
  - rewrite Hnz, <- (dbls_ents 0 Gs). lia.
  - apply arr_list; [lia|]. intros i [p q] E. destruct (j_d0 _ _ _ E). apply P4; auto.
    rewrite j_idb0. apply nth_error_Some. congruence.
  - apply arr_list; [lia|]. intros i [p q] E. destruct (j_d0 _ _ _ E). apply P5; auto.
    rewrite j_idb0. apply nth_error_Some. congruence.
  - intros p x E. unfold triL in E. rewrite nth_error_map in E.
    destruct (nth_error Gs p) as [g|] eqn:Eg; [|discriminate]. injection E as <-. cbn [snd].
    apply (dbls_filter Gs 0 p g Eg).
  - unfold triL. rewrite map_length. eapply Forall_impl; [|apply dbls_bound]. simpl; intros; lia.
Qed.

Lemma triL_sorted Gs : gsorted Gs -> StronglySorted llt (triL Gs).
Proof.
  unfold gsorted, triL. induction 1 as [|g l Hl IH Hg]; simpl; constructor; auto.
  apply Forall_forall. intros x Hx. apply in_map_iff in Hx. destruct Hx as [h [<- Hh]].
  rewrite Forall_forall in Hg. apply (Hg h Hh).
Qed.

Lemma triL_ok dim Gs : Forall (gok dim) Gs -> Forall (fok dim) (triL Gs).
Proof.
  intros H. apply Forall_forall. intros x Hx. apply in_map_iff in Hx. destruct Hx as [h [<- Hh]].
  rewrite Forall_forall in H. specialize (H h Hh). unfold gok in H. unfold fok, frow, fcol; simpl. lia.
Qed.
