(** Proofs about the C interface model: the machine with addresses (CIModel.v) and the
    machine with values (CISpec.v) show the same observations. *)
From Coq Require Import List Bool Arith ZArith Lia.
From Verif Require Import CIModel CISpec.
Import ListNotations.
Set Implicit Arguments.

Section P.
Variable V : Type.
Variable one junk : V.
Notation lmap := (nat -> option (list V)).
Notation mem := (mem V).
Notation problem := (problem V).
Notation tnlp := (tnlp V).

Definition occ (q : option addr) (a : nat) : nat :=
  match q with Some (Lb b) => if Nat.eqb a b then 1 else 0 | _ => 0 end.
Definition cnt (m : mem) (a : nat) : nat := if lb m a then 1 else 0.
Definition fresh (m : mem) : Prop := forall a, nxt m <= a -> lb m a = None.
Definition oholds (f : lmap) (k : nat) (q : option addr) (ov : option (list V)) : Prop :=
  match q, ov with
  | None, None => True
  | Some (Lb a), Some l => f a = Some l /\ length l = k
  | _, _ => False
  end.
Definition gholds (f : lmap) (k : nat) (q : option addr) (l : list V) : Prop :=
  match k with 0 => q = None /\ l = [] | _ => oholds f k q (Some l) end.
Definition ple (f g : lmap) (q : option addr) : Prop :=
  forall a l, q = Some (Lb a) -> f a = Some l -> g a = Some l.

Lemma cnt_le m a : cnt m a <= 1.
Proof. unfold cnt; destruct (lb m a); lia. Qed.
Lemma oholds_ple f g k q ov : ple f g q -> oholds f k q ov -> oholds g k q ov.
Proof.
  unfold oholds; intros P H; destruct q as [[a|a]|], ov as [l|]; try tauto.
  destruct H as (H & L); split; [exact (P _ _ eq_refl H)|exact L].
Qed.
Lemma gholds_ple f g k q l : ple f g q -> gholds f k q l -> gholds g k q l.
Proof. unfold gholds; destruct k; [tauto|]. intros P; apply oholds_ple; auto. Qed.

Lemma upd_same (f : lmap) a v : upd f a v a = v.
Proof. unfold upd; now rewrite Nat.eqb_refl. Qed.
Lemma upd_other (f : lmap) a v b : b <> a -> upd f a v b = f b.
Proof. unfold upd; destruct (Nat.eqb_spec b a); congruence. Qed.

Lemma ple_upd f q a v : occ q a = 0 -> ple f (upd f a v) q.
Proof.
  intros O b l -> H. unfold occ in O. rewrite upd_other; auto.
  intros ->. rewrite Nat.eqb_refl in O. discriminate.
Qed.
Lemma ple_upd_fresh f q a v : f a = None -> ple f (upd f a v) q.
Proof. intros F b l -> H. rewrite upd_other; auto. congruence. Qed.

(** after an allocation *)
Definition ext (m : mem) (q : option addr) (ov : option (list V)) (k : nat) (m' : mem) : Prop :=
  cl m' = cl m /\ fresh m' /\ oholds (lb m') k q ov /\ (forall p, ple (lb m) (lb m') p) /\
  (forall a, cnt m' a = cnt m a + occ q a).

Lemma firstn_all2' (l : list V) k : length l = k -> firstn k l = l.
Proof. intros <-; apply firstn_all. Qed.

Lemma read_lb m k q l : oholds (lb m) k q (Some l) -> read k q m = Ok l.
Proof.
  unfold oholds, read; destruct q as [[a|a]|]; try tauto. intros (H & L).
  destruct k. { now destruct l. } unfold look. rewrite H, L, Nat.leb_refl, firstn_all2 by lia; reflexivity.
Qed.
Lemma read_opt_lb m k q ov : oholds (lb m) k q ov -> read_opt k q m = Ok ov.
Proof.
  unfold read_opt; intros H; destruct q as [q|], ov as [l|]; [|destruct q; contradiction|contradiction|reflexivity].
  now rewrite (@read_lb _ _ _ _ H).
Qed.
Lemma read_g m k q l : gholds (lb m) k q l -> read k q m = Ok l.
Proof. unfold gholds; destruct k. { intros (-> & ->); reflexivity. } apply read_lb. Qed.
Lemma is_some_oholds f k q ov : oholds f k q ov -> is_some q = is_some ov.
Proof. destruct q as [[a|a]|], ov; simpl; tauto. Qed.

Lemma new_copy_ext m k (src : addr) v :
  fresh m -> length v = k -> (k <> 0 -> forall m1, (forall p, ple (lb m) (lb m1) p) -> cl m1 = cl m -> read k (Some src) m1 = Ok v) ->
  exists q m', new_copy junk k src m = Ok (q, m') /\ ext m q (Some v) k m'.
Proof.
  intros F L H. unfold new_copy, alloc, copy.
  set (m1 := Mem _ _ _).
  assert (FR : lb m (nxt m) = None) by (apply F; lia).
  assert (E1 : lb m1 (nxt m) = Some (repeat junk k)) by (unfold m1; simpl; apply upd_same).
  assert (P1 : forall p, ple (lb m) (lb m1) p) by (intros p; unfold m1; simpl; apply ple_upd_fresh; auto).
  destruct k as [|k'].
  - simpl. exists (Some (Lb (nxt m))), m1. split; [reflexivity|]. split; [reflexivity|split; [|split; [|split; [exact P1|]]]].
    + intros a Ha; unfold m1 in *; simpl in *. rewrite upd_other by lia. apply F; lia.
    + destruct v; [|discriminate]. split; [exact E1|reflexivity].
    + intros a. unfold cnt, m1, occ; simpl. unfold upd. destruct (Nat.eqb_spec a (nxt m)) as [->|]; [rewrite FR; reflexivity|lia].
  - rewrite (H ltac:(lia) m1 P1 eq_refl). cbn [bind]. unfold write. unfold look. rewrite E1, repeat_length, L, Nat.leb_refl.
    cbn [andb bind]. rewrite firstn_all2 by lia. rewrite skipn_all2 by (rewrite repeat_length; lia). rewrite app_nil_r.
    exists (Some (Lb (nxt m))). eexists. split; [reflexivity|]. unfold store, m1; simpl.
    repeat split; simpl; auto.
    + intros a Ha. simpl in *. rewrite !upd_other by lia. apply F; lia.
    + apply upd_same.
    + intros p b l -> Hb. rewrite !upd_other by congruence. exact Hb.
    + intros a. unfold cnt, occ; simpl. unfold upd. destruct (Nat.eqb_spec a (nxt m)) as [->|]; [rewrite FR; reflexivity|lia].
Qed.

Lemma ext_refl m k : fresh m -> ext m None None k m.
Proof. intros F; repeat split; simpl; auto. intros p a l _ H; exact H. Qed.

Lemma opt_array_len (c : lmap) k p v : opt_array c k p = Ok (Some v) -> length v = k.
Proof.
  unfold opt_array; destruct p; [|discriminate]. destruct (Nat.eqb_spec k 0). { intros [=<-]; simpl; auto. }
  unfold array. destruct (c n) as [l|]; [|discriminate]. destruct (Nat.leb_spec k (length l)); [|discriminate].
  intros [=<-]. apply firstn_length_le; auto.
Qed.

Lemma new_copy_spec m k p : fresh m ->
  match opt_array (cl m) k p with
  | Undef => new_copy_opt junk k (cptr p) m = Undef
  | Ok ov => exists q m', new_copy_opt junk k (cptr p) m = Ok (q, m') /\ ext m q ov k m'
  end.
Proof.
  intros F. destruct p as [a|]; cbn [cptr option_map new_copy_opt].
  2:{ simpl. exists None, m. split; auto. apply ext_refl; auto. }
  destruct (opt_array (cl m) k (Some a)) as [ov|] eqn:E.
  - assert (exists v, ov = Some v) as (v & ->).
    { revert E; unfold opt_array. destruct (k =? 0); [intros [=<-]; eauto|]. destruct (array _ _ _); [intros [=<-]; eauto|discriminate]. }
    pose proof (@opt_array_len _ _ _ _ E) as L. apply new_copy_ext; auto.
    intros K m1 _ C. revert E. unfold opt_array. destruct (Nat.eqb_spec k 0); [lia|]. unfold array, read, look. rewrite C.
    destruct k; [lia|]. destruct (cl m a) as [l|]; [|discriminate]. destruct (S k <=? length l); [|discriminate]. intros [=<-]; reflexivity.
  - revert E. unfold opt_array. destruct (Nat.eqb_spec k 0); [discriminate|]. unfold new_copy, alloc, copy, read, look.
    destruct k; [lia|]. simpl (cl _). unfold array. destruct (cl m a) as [l|]; [|reflexivity].
    destruct (S k <=? length l); [discriminate|reflexivity].
Qed.

Lemma new_copy_lb m k q ov : fresh m -> oholds (lb m) k q ov ->
  exists q' m', new_copy_opt junk k q m = Ok (q', m') /\ ext m q' ov k m'.
Proof.
  intros F H. destruct q as [q|]; cbn [new_copy_opt].
  - destruct ov as [l|]; [|destruct q; contradiction].
    apply new_copy_ext; auto.
    + destruct q; [contradiction|]. apply H.
    + intros _ m1 P C. apply read_lb. eapply oholds_ple; [apply P|exact H].
  - destruct ov; [contradiction|]. exists None, m. split; auto. apply ext_refl; auto.
Qed.

(** after a deletion *)
Definition red (m : mem) (q : option addr) (m' : mem) : Prop :=
  cl m' = cl m /\ fresh m' /\ (forall p, (forall a, occ q a + occ p a <= 1) -> ple (lb m) (lb m') p) /\
  (forall a, cnt m a = cnt m' a + occ q a).
Lemma delete_spec m k q ov : fresh m -> oholds (lb m) k q ov -> exists m', delete q m = Ok m' /\ red m q m'.
Proof.
  intros F H. destruct q as [[a|a]|]; cbn [delete].
  - destruct ov; contradiction.
  - destruct ov as [l|]; [|contradiction]. destruct H as (H & _). rewrite H. eexists; split; [reflexivity|].
    repeat split; simpl; auto.
    + intros b Hb; simpl in *. destruct (Nat.eq_dec b a) as [->|]; [apply upd_same|]. rewrite upd_other; auto.
    + intros p D. apply ple_upd. specialize (D a). simpl in D. rewrite Nat.eqb_refl in D. lia.
    + intros b. unfold cnt; simpl. unfold upd. destruct (Nat.eqb_spec b a) as [->|]; [rewrite H; reflexivity|lia].
  - exists m. split; auto. repeat split; auto. intros p _ a l _ E; exact E.
Qed.
Lemma delete_g m k q l : fresh m -> gholds (lb m) k q l -> exists m', delete q m = Ok m' /\ red m q m'.
Proof.
  intros F H. destruct k; [|apply delete_spec with (k:=S k) (ov:=Some l); auto].
  destruct H as (-> & _). apply delete_spec with (k:=0) (ov:=None); auto. exact Logic.I.
Qed.

(** a write into a block of the interface *)
Definition mod_ (m : mem) (q : option addr) (v : list V) (k : nat) (m' : mem) : Prop :=
  cl m' = cl m /\ fresh m' /\ oholds (lb m') k q (Some v) /\
  (forall p, (forall a, occ q a + occ p a <= 1) -> ple (lb m) (lb m') p) /\ (forall a, cnt m' a = cnt m a).
Lemma write_lb m k q l x : fresh m -> oholds (lb m) k q (Some l) ->
  if k <=? length x then exists m', write k x q m = Ok m' /\ mod_ m q (firstn k x) k m' else write k x q m = Undef.
Proof.
  intros F H. destruct q as [[a|a]|]; try contradiction. destruct H as (H & L).
  destruct (Nat.leb_spec k (length x)) as [K|K].
  - destruct k as [|k'].
    + exists m. split; [reflexivity|]. destruct l; [|discriminate]. repeat split; simpl; auto. intros p _ b l' _ E; exact E.
    + unfold write, look. rewrite H, L, Nat.leb_refl. apply Nat.leb_le in K. rewrite K. cbn [andb].
      eexists; split; [reflexivity|]. unfold store. rewrite (skipn_all2 l) by lia. rewrite app_nil_r. apply Nat.leb_le in K.
      repeat split; simpl lb; simpl cl; auto.
      * intros b Hb; simpl in *. rewrite upd_other; [apply F; auto|]. intros ->. rewrite F in H by auto. discriminate.
      * apply upd_same.
      * apply firstn_length_le; auto.
      * intros p D. apply ple_upd. specialize (D a). unfold occ in D at 1. rewrite Nat.eqb_refl in D. lia.
      * intros b. unfold cnt; simpl lb. unfold upd. destruct (Nat.eqb_spec b a) as [->|]; [rewrite H; reflexivity|reflexivity].
  - destruct k as [|k']; [lia|]. unfold write, look. rewrite H, L, Nat.leb_refl. destruct (Nat.leb_spec (S k') (length x)); [lia|reflexivity].
Qed.

Lemma alloc_ext m k : fresh m -> ext m (Some (fst (alloc junk k m))) (Some (repeat junk k)) k (snd (alloc junk k m)).
Proof.
  intros F. unfold alloc; simpl. assert (FR : lb m (nxt m) = None) by (apply F; lia).
  repeat split; simpl; auto.
  - intros a Ha; simpl in *. rewrite upd_other by lia. apply F; lia.
  - apply upd_same.
  - apply repeat_length.
  - intros p. apply ple_upd_fresh; auto.
  - intros a. unfold cnt; simpl. unfold upd. destruct (Nat.eqb_spec a (nxt m)) as [->|]; [rewrite FR; reflexivity|lia].
Qed.

(** ** the invariant *)
Definition ptot (p : problem) (a : nat) : nat :=
  occ (p_xL p) a + occ (p_xU p) a + occ (p_gL p) a + occ (p_gU p) a + occ (p_xs p) a + occ (p_gs p) a.
Definition ttot (t : tnlp) (a : nat) : nat :=
  occ (t_sx t) a + occ (t_slam t) a + occ (t_szL t) a + occ (t_szU t) a + occ (t_xs t) a + occ (t_gs t) a + occ (t_ncx t) a.
Definition ktot (t : tnlp) (a : nat) : nat := occ (t_xs t) a + occ (t_gs t) a + occ (t_ncx t) a.
Definition otot {A} (f : A -> nat -> nat) (o : option A) (a : nat) : nat := match o with Some x => f x a | None => 0 end.

Record prel (f : lmap) (p : problem) (q : vprob V) : Prop := {
  pr_n : p_n p = v_n q; pr_m : p_m p = v_m q; pr_pos : 0 < v_n q;
  pr_xL : oholds f (v_n q) (p_xL p) (Some (v_xL q)); pr_xU : oholds f (v_n q) (p_xU p) (Some (v_xU q));
  pr_gL : gholds f (v_m q) (p_gL p) (v_gL q); pr_gU : gholds f (v_m q) (p_gU p) (v_gU q);
  pr_nj : p_nj p = v_nj q; pr_nh : p_nh p = v_nh q; pr_st : p_style p = v_style q;
  pr_f : p_f p = v_f q; pr_g : p_g p = v_g q; pr_gf : p_gf p = v_gf q; pr_jg : p_jg p = v_jg q; pr_h : p_h p = v_h q;
  pr_inter : p_inter p = v_inter q; pr_obj : p_obj p = v_obj q;
  pr_xs : oholds f (v_n q) (p_xs p) (v_xs q); pr_gs : oholds f (v_m q) (p_gs p) (v_gs q);
  pr_ok : (0 <= v_nj q)%Z /\ (0 <= v_nh q)%Z /\ is_some (v_f q) = true /\ is_some (v_gf q) = true }.

Record trel (f : lmap) (p : problem) (t : tnlp) (r : vrun V) : Prop := {
  tr_n : t_n t = v_n (r_prob r); tr_m : t_m t = v_m (r_prob r); tr_pos : 0 < v_n (r_prob r);
  tr_pxL : t_xL t = p_xL p; tr_pxU : t_xU t = p_xU p; tr_pgL : t_gL t = p_gL p; tr_pgU : t_gU t = p_gU p;
  tr_xL : oholds f (v_n (r_prob r)) (t_xL t) (Some (v_xL (r_prob r)));
  tr_xU : oholds f (v_n (r_prob r)) (t_xU t) (Some (v_xU (r_prob r)));
  tr_gL : gholds f (v_m (r_prob r)) (t_gL t) (v_gL (r_prob r));
  tr_gU : gholds f (v_m (r_prob r)) (t_gU t) (v_gU (r_prob r));
  tr_nj : t_nj t = v_nj (r_prob r); tr_nh : t_nh t = v_nh (r_prob r); tr_st : t_style t = v_style (r_prob r);
  tr_sx : oholds f (v_n (r_prob r)) (t_sx t) (Some (r_x r));
  tr_slam : oholds f (v_m (r_prob r)) (t_slam t) (r_lam r);
  tr_szL : oholds f (v_n (r_prob r)) (t_szL t) (r_zL r);
  tr_szU : oholds f (v_n (r_prob r)) (t_szU t) (r_zU r);
  tr_f : t_f t = v_f (r_prob r); tr_g : t_g t = v_g (r_prob r); tr_gf : t_gf t = v_gf (r_prob r);
  tr_jg : t_jg t = v_jg (r_prob r); tr_h : t_h t = v_h (r_prob r); tr_inter : t_inter t = v_inter (r_prob r);
  tr_user : t_user t = s_user (r_out r); tr_obj : t_obj t = v_obj (r_prob r);
  tr_xs : oholds f (v_n (r_prob r)) (t_xs t) (v_xs (r_prob r));
  tr_gs : oholds f (v_m (r_prob r)) (t_gs t) (v_gs (r_prob r));
  tr_ncx : oholds f (v_n (r_prob r)) (t_ncx t) (r_point r);
  tr_ox : t_ox t = cptr (s_x (r_out r)); tr_ozL : t_ozL t = cptr (s_mL (r_out r)); tr_ozU : t_ozU t = cptr (s_mU (r_out r));
  tr_og : t_og t = cptr (s_g (r_out r)); tr_olam : t_olam t = cptr (s_mg (r_out r)); tr_oobj : t_oobj t = cptr (s_objv (r_out r));
  tr_ip : t_ipdata t = r_incb r }.

(** the TNLP object kept by the application *)
Definition krel (f : lmap) (t : tnlp) : Prop :=
  exists a b c ka kb kc, oholds f ka (t_xs t) a /\ oholds f kb (t_gs t) b /\ oholds f kc (t_ncx t) c.

Definition orel {A B} (P : A -> B -> Prop) (x : option A) (y : option B) : Prop :=
  match x, y with Some a, Some b => P a b | None, None => True | _, _ => False end.

Record R (s : state V) (v : vstate V) : Prop := {
  R_cl : cl (sm s) = vc v;
  R_fresh : fresh (sm s);
  R_sum : forall a, cnt (sm s) a = otot ptot (sp s) a + otot ttot (sr s) a + otot ktot (sk s) a;
  R_p : orel (prel (lb (sm s))) (sp s) (vp v);
  R_t : match sr s, vr v with
        | Some t, Some r => sk s = None /\ (match sp s with Some p => trel (lb (sm s)) p t r | None => False end)
        | None, None => True
        | _, _ => False end;
  R_k : match sk s with Some t => sp s <> None /\ krel (lb (sm s)) t | None => True end }.

Lemma prel_ple f g p q :
  ple f g (p_xL p) -> ple f g (p_xU p) -> ple f g (p_gL p) -> ple f g (p_gU p) -> ple f g (p_xs p) -> ple f g (p_gs p) ->
  prel f p q -> prel g p q.
Proof. intros ? ? ? ? ? ? []. constructor; try assumption; try (eapply oholds_ple; eassumption); eapply gholds_ple; eassumption. Qed.
Lemma trel_ple f g p t r :
  ple f g (p_xL p) -> ple f g (p_xU p) -> ple f g (p_gL p) -> ple f g (p_gU p) ->
  ple f g (t_sx t) -> ple f g (t_slam t) -> ple f g (t_szL t) -> ple f g (t_szU t) -> ple f g (t_xs t) -> ple f g (t_gs t) -> ple f g (t_ncx t) ->
  trel f p t r -> trel g p t r.
Proof.
  intros ? ? ? ? ? ? ? ? ? ? ? []. constructor; try assumption;
    try (eapply oholds_ple; eassumption); try (eapply gholds_ple; eassumption).
  all: try (rewrite tr_pxL0 in *; eapply oholds_ple; eassumption).
  all: try (rewrite tr_pxU0 in *; eapply oholds_ple; eassumption).
  all: try (rewrite tr_pgL0 in *; eapply gholds_ple; eassumption).
  all: try (rewrite tr_pgU0 in *; eapply gholds_ple; eassumption).
Qed.
Lemma krel_ple f g t : ple f g (t_xs t) -> ple f g (t_gs t) -> ple f g (t_ncx t) -> krel f t -> krel g t.
Proof.
  intros ? ? ? (a & b & c & ka & kb & kc & ? & ? & ?). exists a, b, c, ka, kb, kc.
  repeat split; eapply oholds_ple; eassumption.
Qed.
Lemma trel_krel f p t r : trel f p t r -> krel f t.
Proof. intros []. unfold krel. eauto 12. Qed.

(** destroying a kept TNLP *)
Definition redk (m : mem) (tot : nat -> nat) (m' : mem) : Prop :=
  cl m' = cl m /\ fresh m' /\ (forall p, (forall a, tot a + occ p a <= 1) -> ple (lb m) (lb m') p) /\
  (forall a, cnt m a = cnt m' a + tot a).
Lemma ple_trans f g h q : ple f g q -> ple g h q -> ple f h q.
Proof. unfold ple; eauto. Qed.
Lemma ple_refl f q : ple f f q.
Proof. unfold ple; auto. Qed.
Lemma redk_nil m : fresh m -> redk m (fun _ => 0) m.
Proof. intros F; split; [reflexivity|split; [exact F|split; [intros; apply ple_refl|intros; lia]]]. Qed.
Lemma redk_step m tot m1 q m2 : redk m tot m1 -> red m1 q m2 -> redk m (fun a => tot a + occ q a) m2.
Proof.
  intros (A1 & A2 & A3 & A4) (B1 & B2 & B3 & B4). split; [congruence|split; [exact B2|split]].
  - intros p D. eapply ple_trans; [apply A3|apply B3]; intros a; specialize (D a); lia.
  - intros a. rewrite A4, B4. lia.
Qed.
Lemma redk_ext m tot tot' m' : (forall a, tot a = tot' a) -> redk m tot m' -> redk m tot' m'.
Proof.
  intros E (A & B & C & D). split; [auto|split; [auto|split]].
  - intros p H. apply C. intros a. rewrite E. apply H.
  - intros a. rewrite D, E. reflexivity.
Qed.

Lemma destroy_spec m t : fresh m -> krel (lb m) t -> (forall a, ktot t a <= 1) -> exists m', destroy t m = Ok m' /\ redk m (ktot t) m'.
Proof.
  intros F (a & b & c & ka & kb & kc & H1 & H2 & H3) D. unfold destroy.
  pose proof (redk_nil F) as K0.
  destruct (@delete_spec m _ _ _ F H3) as (m1 & -> & E1). cbn [bind]. pose proof (redk_step K0 E1) as K1.
  assert (P1 : oholds (lb m1) ka (t_xs t) a).
  { eapply oholds_ple; [|exact H1]. apply E1. intros x; specialize (D x); unfold ktot in D; lia. }
  assert (P2 : oholds (lb m1) kb (t_gs t) b).
  { eapply oholds_ple; [|exact H2]. apply E1. intros x; specialize (D x); unfold ktot in D; lia. }
  destruct (@delete_spec m1 _ _ _ (proj1 (proj2 E1)) P1) as (m2 & -> & E2). cbn [bind]. pose proof (redk_step K1 E2) as K2.
  assert (P3 : oholds (lb m2) kb (t_gs t) b).
  { eapply oholds_ple; [|exact P2]. apply E2. intros x; specialize (D x); unfold ktot in D; lia. }
  destruct (@delete_spec m2 _ _ _ (proj1 (proj2 E2)) P3) as (m3 & -> & E3). pose proof (redk_step K2 E3) as K3.
  exists m3. split; auto. eapply redk_ext; [|exact K3]. intros x; unfold ktot; simpl; lia.
Qed.

(** the two machines agree *)
Definition sim (x : res (list (obs V) * state V)) (y : res (list (obs V) * vstate V)) : Prop :=
  match x, y with
  | Ok (o, s), Ok (o', v) => o = o' /\ R s v
  | Undef, Undef => True
  | _, _ => False end.

(** methods of the TNLP *)
Definition tsim (p : problem) (m : mem) (t : tnlp) (x : res (list (obs V) * tnlp * mem)) (y : res (list (obs V) * vrun V)) : Prop :=
  match x, y with
  | Ok (o, t', m'), Ok (o', r') => o = o' /\ cl m' = cl m /\ fresh m' /\ trel (lb m') p t' r' /\
       (forall a, cnt m' a + ttot t a = cnt m a + ttot t' a) /\
       (forall q, (forall a, occ q a + occ (t_ncx t) a <= 1) -> ple (lb m) (lb m') q)
  | Undef, Undef => True
  | _, _ => False end.

Lemma on_tnlp_sim s v f g : R s v ->
  (forall p t r, trel (lb (sm s)) p t r -> fresh (sm s) -> (forall a, cnt (sm s) a = ptot p a + ttot t a) ->
     tsim p (sm s) t (f t (sm s)) (g r)) ->
  sim (on_tnlp s f) (on_run v g).
Proof.
  intros [] H. unfold on_tnlp, on_run.
  destruct (sp s) as [p|] eqn:Ep, (vp v) as [q|] eqn:Eq; try contradiction; [|exact Logic.I].
  destruct (sr s) as [t|] eqn:Et, (vr v) as [r|] eqn:Er; try contradiction; [|exact Logic.I].
  destruct R_t0 as (K & T). rewrite K in *. simpl in R_sum0.
  specialize (H p t r T R_fresh0). assert (HS : forall a, cnt (sm s) a = ptot p a + ttot t a) by (intros a; rewrite R_sum0; lia).
  specialize (H HS). unfold tsim in H.
  destruct (f t (sm s)) as [[[o t'] m']|], (g r) as [[o' r']|]; try contradiction; [|exact Logic.I].
  destruct H as (-> & A & B & C & D & E). simpl. split; [reflexivity|]. constructor; simpl.
  - congruence.
  - exact B.
  - intros a. specialize (D a). specialize (HS a). lia.
  - simpl in R_p0. revert R_p0. apply prel_ple; apply E; intros a; specialize (HS a); pose proof (cnt_le (sm s) a); unfold ptot, ttot in HS; lia.
  - split; auto.
  - exact Logic.I.
Qed.

Lemma tsim_same p m t r o : trel (lb m) p t r -> fresh m -> tsim p m t (Ok (o, t, m)) (Ok (o, r)).
Proof. intros T F. simpl. split; [reflexivity|split; [reflexivity|split; [exact F|split; [exact T|split; [reflexivity|intros; apply ple_refl]]]]]. Qed.

Lemma seen_x_holds f p t r m : lb m = f -> trel f p t r -> seen_x t m = Ok (r_point r).
Proof.
  intros <- []. unfold seen_x. destruct (t_ncx t) as [q|] eqn:E.
  - rewrite tr_n0. destruct (r_point r) as [l|]; [|simpl in tr_ncx0; destruct q; contradiction].
    rewrite (@read_lb _ _ _ _ tr_ncx0). reflexivity.
  - destruct (r_point r); [contradiction|reflexivity].
Qed.

Lemma trel_point f p t r q z : trel f p t r -> oholds f (v_n (r_prob r)) q z -> trel f p (with_ncx t q) (with_point r z).
Proof. intros [] H. constructor; simpl; assumption. Qed.

Lemma apply_new_x_sim p m t r nx x : trel (lb m) p t r -> fresh m -> (forall a, cnt m a = ptot p a + ttot t a) ->
  match apply_new_x junk nx x t m, point_after nx x r with
  | Ok (t', m'), Ok q => tsim p m t (Ok ([], t', m')) (Ok ([], with_point r q))
  | Undef, Undef => True
  | _, _ => False end.
Proof.
  intros T F SU. unfold apply_new_x, point_after. destruct nx.
  2:{ apply tsim_same; auto. destruct r; exact T. }
  pose proof (tr_n T) as EN. rewrite EN. destruct (t_ncx t) as [q|] eqn:EQ.
  - assert (exists l, r_point r = Some l) as (l & EL).
    { pose proof (tr_ncx T) as H. rewrite EQ in H. destruct (r_point r); [eauto|]. destruct q; contradiction. }
    pose proof (tr_ncx T) as H. rewrite EQ, EL in H.
    pose proof (@write_lb m _ _ _ x F H) as W. destruct (v_n (r_prob r) <=? length x).
    + destruct W as (m' & -> & W). cbn [bind]. destruct W as (W1 & W2 & W3 & W4 & W5).
      assert (T' : trel (lb m') p (with_ncx t (Some q)) (with_point r (Some (firstn (v_n (r_prob r)) x)))).
      { destruct T. constructor; simpl; try assumption;
        try (eapply oholds_ple; [|eassumption]); try (eapply gholds_ple; [|eassumption]);
        try rewrite tr_pxL0; try rewrite tr_pxU0; try rewrite tr_pgL0; try rewrite tr_pgU0;
        try (apply W4; intros a; specialize (SU a); pose proof (cnt_le m a); unfold ptot, ttot in SU; rewrite EQ in SU; lia). }
      assert (ET : with_ncx t (Some q) = t) by (unfold with_ncx; rewrite <- EQ; destruct t; reflexivity).
      rewrite ET in T'. simpl. split; [reflexivity|]. split; [exact W1|split; [exact W2|split; [exact T'|split]]].
      * intros a. rewrite W5. reflexivity.
      * intros p0 D. apply W4. intros a. specialize (D a). rewrite EQ in D. lia.
    + rewrite W. exact Logic.I.
  - pose proof (alloc_ext (v_n (r_prob r)) F) as X. destruct (alloc junk (v_n (r_prob r)) m) as [q m1]. simpl fst in X; simpl snd in X.
    destruct X as (X1 & X2 & X3 & X4 & X5).
    pose proof (@write_lb m1 _ _ _ x X2 X3) as W. destruct (v_n (r_prob r) <=? length x).
    + destruct W as (m' & -> & W). cbn [bind]. destruct W as (W1 & W2 & W3 & W4 & W5).
      assert (PP : forall z, ple (lb m) (lb m') z).
      { intros z a l -> Hl. pose proof (X4 (Some (Lb a)) a l eq_refl Hl) as H1.
        apply (W4 (Some (Lb a))); [|reflexivity|exact H1]. intros b.
        specialize (X5 b). pose proof (cnt_le m1 b) as C1.
        assert (occ (Some (Lb a)) b <= cnt m b) by (unfold occ, cnt; destruct (Nat.eqb_spec b a) as [->|]; [rewrite Hl; lia|lia]). lia. }
      assert (T1 : trel (lb m') p t r) by (revert T; apply trel_ple; apply PP).
      pose proof (trel_point (Some q) _ T1 W3) as T'.
      simpl. split; [reflexivity|]. split; [congruence|split; [exact W2|split; [exact T'|split]]].
      * intros a. rewrite W5, X5. unfold ttot; simpl t_sx; simpl t_slam; simpl t_szL; simpl t_szU; simpl t_xs; simpl t_gs; simpl t_ncx. rewrite EQ. simpl. lia.
      * intros z _. apply PP.
    + rewrite W. exact Logic.I.
Qed.

Lemma reply_answered ret : reply V ret = answered V ret.
Proof. destruct ret; reflexivity. Qed.

Lemma eval_sim p m t r nx x call call' ret : trel (lb m) p t r -> fresh m -> (forall a, cnt m a = ptot p a + ttot t a) ->
  (forall q t' r', trel (lb m) p t r -> t_f t' = t_f t -> t_g t' = t_g t -> t_gf t' = t_gf t -> t_jg t' = t_jg t -> t_h t' = t_h t -> t_user t' = t_user t ->
      r' = r -> call q t' = call' q) ->
  tsim p m t (eval_cb junk nx x call ret t m) (veval nx x call' ret r).
Proof.
  intros T F SU C. unfold eval_cb, veval. rewrite reply_answered. pose proof (apply_new_x_sim nx x T F SU) as H.
  assert (ID : forall t' m', apply_new_x junk nx x t m = Ok (t', m') ->
     t_f t' = t_f t /\ t_g t' = t_g t /\ t_gf t' = t_gf t /\ t_jg t' = t_jg t /\ t_h t' = t_h t /\ t_user t' = t_user t).
  { unfold apply_new_x. intros t' m'. destruct nx; [|intros [=<- _]; tauto]. destruct (t_ncx t).
    - destruct (write _ _ _ _); simpl; [intros [=<- _]; tauto|discriminate].
    - destruct (alloc _ _ _). destruct (write _ _ _ _); simpl; [intros [=<- _]; simpl; tauto|discriminate]. }
  destruct (apply_new_x junk nx x t m) as [[t' m']|], (point_after nx x r) as [q|]; try contradiction; [|exact Logic.I].
  cbn [bind fst snd]. destruct H as (_ & H1 & H2 & H3 & H4 & H5).
  rewrite (@seen_x_holds _ p t' (with_point r q) m' eq_refl H3). cbn [bind]. simpl r_point.
  destruct (ID t' m' eq_refl) as (I1 & I2 & I3 & I4 & I5 & I6).
  split; [|auto]. f_equal. eapply C; eauto.
Qed.

Lemma ext_red_id (m m1 m2 m3 : mem) k l v q : fresh m -> ext m (Some q) (Some l) k m1 -> mod_ m1 (Some q) v k m2 -> red m2 (Some q) m3 ->
  cl m3 = cl m /\ fresh m3 /\ (forall z, ple (lb m) (lb m3) z) /\ (forall a, cnt m3 a = cnt m a).
Proof.
  intros F (X1 & X2 & X3 & X4 & X5) (W1 & W2 & W3 & W4 & W5) (D1 & D2 & D3 & D4).
  assert (OC : forall a b l', lb m a = Some l' -> occ (Some q) b + occ (Some (Lb a)) b <= 1).
  { intros a b l' Hl. specialize (X5 b). pose proof (cnt_le m1 b).
    assert (occ (Some (Lb a)) b <= cnt m b) by (unfold occ, cnt; destruct (Nat.eqb_spec b a) as [->|]; [rewrite Hl; lia|lia]). lia. }
  split; [congruence|split; [exact D2|split]].
  - intros z a l' -> Hl. pose proof (X4 (Some (Lb a)) a l' eq_refl Hl) as H1.
    pose proof (W4 (Some (Lb a)) (fun b => OC a b l' Hl) a l' eq_refl H1) as H2.
    exact (D3 (Some (Lb a)) (fun b => OC a b l' Hl) a l' eq_refl H2).
  - intros a. specialize (X5 a). specialize (W5 a). specialize (D4 a). lia.
Qed.

Lemma lambda_copy_sim m t lam : fresh m ->
  match (match lam with None => Ok (repeat junk (t_m t)) | Some l => if t_m t <=? length l then Ok (firstn (t_m t) l) else Undef end) with
  | Undef => lambda_copy junk lam t m = Undef
  | Ok l => exists m', lambda_copy junk lam t m = Ok (l, m') /\
      cl m' = cl m /\ fresh m' /\ (forall z, ple (lb m) (lb m') z) /\ (forall a, cnt m' a = cnt m a)
  end.
Proof.
  intros F. unfold lambda_copy. pose proof (alloc_ext (t_m t) F) as X. destruct (alloc junk (t_m t) m) as [q m1]. simpl fst in X; simpl snd in X.
  destruct lam as [l|].
  - pose proof (@write_lb m1 _ _ _ l (proj1 (proj2 X)) (proj1 (proj2 (proj2 X)))) as W. destruct (t_m t <=? length l).
    + destruct W as (m2 & -> & W). cbn [bind]. pose proof W as (W1 & W2 & W3 & _). rewrite (@read_lb _ _ _ _ W3). cbn [bind].
      destruct (@delete_spec m2 _ _ _ W2 W3) as (m3 & -> & D). cbn [bind]. exists m3. split; auto. eapply ext_red_id; eassumption.
    + rewrite W. reflexivity.
  - cbn [bind]. pose proof X as (X1 & X2 & X3 & X4 & X5). rewrite (@read_lb _ _ _ _ X3). cbn [bind].
    destruct (@delete_spec m1 _ _ _ X2 X3) as (m3 & -> & D). cbn [bind]. exists m3. split; auto.
    apply (@ext_red_id m m1 m1 m3 _ _ (repeat junk (t_m t)) q F X); auto.
    split; [reflexivity|split; [exact X2|split; [exact X3|split; [intros; apply ple_refl|reflexivity]]]].
Qed.

Lemma write_out_sim (m : mem) k (v : list V) p :
  match put k v p (cl m) with
  | Ok c => write_out k v (cptr p) m = Ok (Mem c (lb m) (nxt m))
  | Undef => write_out k v (cptr p) m = Undef end.
Proof.
  unfold put, write_out. destruct p as [a|]; [|destruct m; reflexivity]. cbn [cptr option_map].
  destruct (Nat.eqb_spec k 0) as [->|K]. { destruct m; reflexivity. }
  unfold write, look. destruct k; [lia|]. destruct (cl m a) as [l|]; [|reflexivity].
  destruct (_ && _); reflexivity.
Qed.

Lemma set_scal_sim m k cur ov src : fresh m -> oholds (lb m) k cur ov ->
  match opt_array (cl m) k src with
  | Undef => set_scal junk k cur (cptr src) m = Undef
  | Ok ov' => exists q m', set_scal junk k cur (cptr src) m = Ok (q, m') /\
      cl m' = cl m /\ fresh m' /\ oholds (lb m') k q ov' /\ (forall p, (forall a, occ cur a + occ p a <= 1) -> ple (lb m) (lb m') p) /\
      (forall a, cnt m' a + occ cur a = cnt m a + occ q a)
  end.
Proof.
  intros F H. pose proof (new_copy_spec k src F) as N. unfold set_scal.
  destruct src as [a|].
  2:{ simpl. destruct (@delete_spec m _ _ _ F H) as (m' & -> & D1 & D2 & D3 & D4). cbn [bind]. exists None, m'.
      split; auto. split; [auto|split; [auto|split; [exact Logic.I|split; [exact D3|]]]]. intros b. specialize (D4 b). simpl. lia. }
  cbn [cptr option_map] in *. destruct cur as [c|].
  - destruct (opt_array (cl m) k (Some a)) as [ov'|] eqn:EO.
    + assert (exists v, ov' = Some v) as (v & ->).
      { revert EO; unfold opt_array. destruct (k =? 0); [intros [=<-]; eauto|]. destruct (array _ _ _); [intros [=<-]; eauto|discriminate]. }
      pose proof (@opt_array_len _ _ _ _ EO) as L.
      assert (RD : read k (Some (Cl a)) m = Ok v).
      { revert EO. unfold opt_array. destruct (Nat.eqb_spec k 0) as [->|]. { intros [=<-]; reflexivity. }
        unfold array, read, look. destruct k; [lia|]. destruct (cl m a) as [l|]; [|discriminate].
        destruct (S k <=? length l); [|discriminate]. intros [=<-]; reflexivity. }
      unfold copy. rewrite RD. cbn [bind]. destruct ov as [l|]; [|destruct c; contradiction].
      pose proof (@write_lb m _ _ _ v F H) as W. rewrite L, Nat.leb_refl in W. destruct W as (m' & -> & W1 & W2 & W3 & W4 & W5).
      cbn [bind]. exists (Some c), m'. split; auto. rewrite firstn_all2 in W3 by lia.
      split; [auto|split; [auto|split; [auto|split; [auto|]]]]. intros b; rewrite W5; reflexivity.
    + revert EO. unfold opt_array. destruct (Nat.eqb_spec k 0); [discriminate|]. unfold copy, read, look, array. destruct k; [lia|].
      destruct (cl m a) as [l'|]; [|reflexivity]. destruct (S k <=? length l'); [discriminate|reflexivity].
  - cbn [new_copy_opt] in N. unfold new_copy in N.
    destruct (opt_array (cl m) k (Some a)) as [ov'|].
    + destruct N as (q & m' & N1 & X1 & X2 & X3 & X4 & X5). exists q, m'. split; [exact N1|].
      split; [auto|split; [auto|split; [auto|split; [auto|]]]]. intros b. specialize (X5 b). simpl. lia.
    + exact N.
Qed.

Lemma step_sim s v e : R s v -> sim (step junk s e) (vstep junk v e).
Proof.
  intros HR. pose proof HR as [CLE FR SU RP RT RK].
  destruct e; cbn [step vstep].
  - (* CAlloc *) rewrite CLE. destruct (vc v k); [exact Logic.I|]. split; [reflexivity|]. constructor; simpl; auto.
  - rewrite CLE. destruct (vc v k); [|exact Logic.I]. split; [reflexivity|]. constructor; simpl; auto.
  - rewrite CLE. destruct (vc v k); [|exact Logic.I]. destruct (_ =? _); [|exact Logic.I].
    split; [reflexivity|]. constructor; simpl; auto. rewrite CLE; auto.
  - (* SetScaling *)
    destruct (sp s) as [p|] eqn:Ep, (vp v) as [q|] eqn:Eq; try contradiction; [|exact Logic.I]. simpl in RP.
    unfold set_scaling. pose proof RP as RP'. destruct RP. rewrite pr_n0, pr_m0.
    pose proof (@set_scal_sim (sm s) _ _ _ xs FR pr_xs0) as H1. rewrite CLE in H1. destruct (opt_array (vc v) (v_n q) xs) as [x|].
    2:{ rewrite H1. exact Logic.I. }
    destruct H1 as (q1 & m1 & -> & A1 & A2 & A3 & A4 & A5). cbn [bind fst snd].
    assert (SU' : forall a, cnt (sm s) a = ptot p a + otot ttot (sr s) a + otot ktot (sk s) a) by (intros a; rewrite SU; reflexivity).
    assert (G0 : oholds (lb m1) (v_m q) (p_gs p) (v_gs q)).
    { eapply oholds_ple; [|exact pr_gs0]. apply A4. intros a. specialize (SU' a). pose proof (cnt_le (sm s) a). unfold ptot in SU'. lia. }
    pose proof (@set_scal_sim m1 _ _ _ gs A2 G0) as H2. rewrite A1 in H2. destruct (opt_array (vc v) (v_m q) gs) as [g|].
    2:{ rewrite H2. exact Logic.I. }
    destruct H2 as (q2 & m2 & -> & B1 & B2 & B3 & B4 & B5). cbn [bind fst snd]. split; [reflexivity|].
    assert (PL : forall z, (forall a, occ (p_xs p) a + occ (p_gs p) a + occ z a <= 1) -> ple (lb (sm s)) (lb m2) z).
    { intros z D. eapply ple_trans; [apply A4|apply B4]; intros a; specialize (D a); lia. }
    assert (X0 : oholds (lb m2) (v_n q) q1 x).
    { eapply oholds_ple; [|exact A3]. apply B4. intros a. specialize (A5 a). specialize (SU' a). pose proof (cnt_le m1 a). unfold ptot in SU'. lia. }
    constructor; simpl.
    + congruence.
    + auto.
    + intros a. specialize (A5 a). specialize (B5 a). specialize (SU' a). unfold ptot in *; simpl. lia.
    + constructor; simpl; try assumption; try reflexivity.
      * eapply oholds_ple; [|exact pr_xL0]. apply PL. intros a. specialize (SU' a). pose proof (cnt_le (sm s) a). unfold ptot in SU'. lia.
      * eapply oholds_ple; [|exact pr_xU0]. apply PL. intros a. specialize (SU' a). pose proof (cnt_le (sm s) a). unfold ptot in SU'. lia.
      * eapply gholds_ple; [|exact pr_gL0]. apply PL. intros a. specialize (SU' a). pose proof (cnt_le (sm s) a). unfold ptot in SU'. lia.
      * eapply gholds_ple; [|exact pr_gU0]. apply PL. intros a. specialize (SU' a). pose proof (cnt_le (sm s) a). unfold ptot in SU'. lia.
    + destruct (sr s) as [t|], (vr v) as [r|]; auto. destruct RT as (K & T). split; auto.
      assert (T' : trel (lb m2) p t r).
      { revert T. simpl in SU'. apply trel_ple; apply PL; intros a; specialize (SU' a); pose proof (cnt_le (sm s) a); unfold ptot, ttot in SU'; lia. }
      destruct T'. constructor; simpl; try assumption.
    + destruct (sk s) as [t|]; auto. destruct RK as (_ & K). split; [discriminate|].
      revert K. simpl in SU'. apply krel_ple; apply PL; intros a; specialize (SU' a); pose proof (cnt_le (sm s) a); unfold ptot, ktot in SU'; lia.
  - (* SetInter *)
    destruct (sp s) as [p|] eqn:Ep, (vp v) as [q|] eqn:Eq; try contradiction; [|exact Logic.I]. simpl in RP.
    split; [reflexivity|]. constructor; simpl; auto.
    + destruct RP; constructor; simpl; try assumption; try reflexivity.
    + destruct (sr s) as [t|], (vr v) as [r|]; auto. destruct RT as (K & T). split; auto. destruct T; constructor; simpl; assumption.
    + destruct (sk s); auto. destruct RK; split; auto. discriminate.
  - (* Solve *)
    destruct (sp s) as [p|] eqn:Ep, (vp v) as [q|] eqn:Eq; try contradiction; [|exact Logic.I]. simpl in RP.
    destruct (sr s) as [t|] eqn:Et, (vr v) as [r|] eqn:Er; try contradiction; [exact Logic.I|].
    assert (SU' : forall b, cnt (sm s) b = ptot p b + otot ktot (sk s) b) by (intros b; rewrite SU; simpl; lia).
    assert (HR' : R (St (sm s) (Some p) None (sk s)) v).
    { constructor; simpl; [exact CLE|exact FR|intros b; rewrite SU'; lia|rewrite Eq; exact RP|rewrite Er; exact Logic.I|exact RK]. }
    unfold solve. destruct (negb (init =? Solve_Succeeded)%Z); [split; [reflexivity|exact HR']|].
    destruct (s_x a) as [xa|] eqn:EX; cbn [is_some negb].
    2:{ simpl. split; [reflexivity|exact HR']. }
    rewrite <- EX. pose proof (pr_n RP) as EN. pose proof (pr_m RP) as EM. rewrite EN, EM.
    pose proof (@new_copy_spec (sm s) (v_n q) (s_x a) FR) as H1. rewrite CLE in H1.
    destruct (opt_array (vc v) (v_n q) (s_x a)) as [ox|] eqn:EOX. 2:{ rewrite H1; exact Logic.I. }
    destruct H1 as (q1 & m1 & -> & A1 & A2 & A3 & A4 & A5). cbn [bind fst snd].
    assert (exists x, ox = Some x) as (x & ->).
    { revert EOX. rewrite EX. unfold opt_array. destruct (v_n q =? 0); [intros [=<-]; eauto|]. destruct (array _ _ _); [intros [=<-]; eauto|discriminate]. }
    pose proof (@new_copy_spec m1 (v_m q) (s_mg a) A2) as H2. rewrite A1, CLE in H2.
    destruct (opt_array (vc v) (v_m q) (s_mg a)) as [olam|]. 2:{ rewrite H2; exact Logic.I. }
    destruct H2 as (q2 & m2 & -> & B1 & B2 & B3 & B4 & B5). cbn [bind fst snd].
    pose proof (@new_copy_spec m2 (v_n q) (s_mL a) B2) as H3. rewrite B1, A1, CLE in H3.
    destruct (opt_array (vc v) (v_n q) (s_mL a)) as [ozL|]. 2:{ rewrite H3; exact Logic.I. }
    destruct H3 as (q3 & m3 & -> & C1 & C2 & C3 & C4 & C5). cbn [bind fst snd].
    pose proof (@new_copy_spec m3 (v_n q) (s_mU a) C2) as H4. rewrite C1, B1, A1, CLE in H4.
    destruct (opt_array (vc v) (v_n q) (s_mU a)) as [ozU|]. 2:{ rewrite H4; exact Logic.I. }
    destruct H4 as (q4 & m4 & -> & D1 & D2 & D3 & D4 & D5). cbn [bind fst snd].
    assert (OK : tnlp_ok p q1 = solvable q).
    { unfold tnlp_ok, solvable. pose proof (is_some_oholds _ _ _ _ A3) as E1. rewrite E1. simpl is_some.
      pose proof RP as RPc. destruct RPc. rewrite pr_n0, pr_m0, pr_nj0, pr_nh0, pr_st0, pr_f0, pr_g0, pr_gf0, pr_jg0, pr_h0.
      destruct pr_ok0 as (K1 & K2 & K3 & K4). rewrite K3, K4.
      rewrite (is_some_oholds _ _ _ _ pr_xL0), (is_some_oholds _ _ _ _ pr_xU0). simpl is_some.
      assert (GL : is_some (p_gL p) || (v_m q =? 0) = true).
      { unfold gholds in pr_gL0. destruct (v_m q); [apply orb_true_r|]. now rewrite (is_some_oholds _ _ _ _ pr_gL0). }
      assert (GU : is_some (p_gU p) || (v_m q =? 0) = true).
      { unfold gholds in pr_gU0. destruct (v_m q); [apply orb_true_r|]. now rewrite (is_some_oholds _ _ _ _ pr_gU0). }
      rewrite GL, GU. apply Nat.ltb_lt in pr_pos0. rewrite pr_pos0. apply Z.leb_le in K1, K2. rewrite K1, K2.
      destruct (is_some (v_g q)), (is_some (v_jg q)), (is_some (v_h q)), ((v_style q =? 0)%Z || (v_style q =? 1)%Z); reflexivity. }
    rewrite OK. assert (P4 : forall z, ple (lb (sm s)) (lb m4) z).
    { intros z. eapply ple_trans; [apply A4|]. eapply ple_trans; [apply B4|]. eapply ple_trans; [apply C4|]. apply D4. }
    assert (N4 : forall b, cnt m4 b = ptot p b + otot ktot (sk s) b + occ q1 b + occ q2 b + occ q3 b + occ q4 b).
    { intros b. rewrite D5, C5, B5, A5, SU'. lia. }
    assert (H1' : oholds (lb m4) (v_n q) q1 (Some x)) by (eapply oholds_ple; [|exact A3]; eapply ple_trans; [apply B4|eapply ple_trans; [apply C4|apply D4]]).
    assert (H2' : oholds (lb m4) (v_m q) q2 olam) by (eapply oholds_ple; [|exact B3]; eapply ple_trans; [apply C4|apply D4]).
    assert (H3' : oholds (lb m4) (v_n q) q3 ozL) by (eapply oholds_ple; [|exact C3]; apply D4).
    destruct (solvable q).
    + assert (RP4 : prel (lb m4) p q) by (revert RP; apply prel_ple; apply P4).
      destruct (@new_copy_lb m4 _ _ _ D2 (pr_xs RP4)) as (q5 & m5 & -> & E1 & E2 & E3 & E4 & E5). cbn [bind fst snd].
      assert (RP5 : prel (lb m5) p q) by (revert RP4; apply prel_ple; apply E4).
      destruct (@new_copy_lb m5 _ _ _ E2 (pr_gs RP5)) as (q6 & m6 & -> & F1 & F2 & F3 & F4 & F5). cbn [bind fst snd].
      assert (P46 : forall z, ple (lb m4) (lb m6) z) by (intros z; eapply ple_trans; [apply E4|apply F4]).
      assert (RP6 : prel (lb m6) p q) by (revert RP5; apply prel_ple; apply F4).
      assert (N6 : forall b, cnt m6 b = ptot p b + otot ktot (sk s) b + occ q1 b + occ q2 b + occ q3 b + occ q4 b + occ q5 b + occ q6 b).
      { intros b. rewrite F5, E5, N4. lia. }
      assert (exists m7, destroy_opt (sk s) m6 = Ok m7 /\ redk m6 (otot ktot (sk s)) m7) as (m7 & -> & G1 & G2 & G3 & G4).
      { destruct (sk s) as [t|]; simpl.
        - destruct RK as (_ & K). apply destroy_spec; auto.
          + revert K. apply krel_ple; (eapply ple_trans; [apply P4|apply P46]).
          + intros b. specialize (N6 b). simpl in N6. pose proof (cnt_le m6 b). lia.
        - exists m6; split; auto. apply redk_nil; auto. }
      assert (GG : forall z, (forall b, occ z b + otot ktot (sk s) b <= 1) -> ple (lb m6) (lb m7) z) by (intros z D; apply G3; intros b; specialize (D b); lia).
      cbn [bind]. split; [reflexivity|]. constructor; simpl.
      * congruence.
      * auto.
      * intros b. specialize (G4 b). specialize (N6 b). unfold ttot; simpl. lia.
      * revert RP6. apply prel_ple; apply GG; intros b; specialize (N6 b); pose proof (cnt_le m6 b); unfold ptot in N6; lia.
      * split; auto.
        assert (Q1 : oholds (lb m7) (v_n q) q1 (Some x)) by (eapply oholds_ple; [apply GG; intros b; specialize (N6 b); pose proof (cnt_le m6 b); lia|eapply oholds_ple; [apply P46|exact H1']]).
        assert (Q2 : oholds (lb m7) (v_m q) q2 olam) by (eapply oholds_ple; [apply GG; intros b; specialize (N6 b); pose proof (cnt_le m6 b); lia|eapply oholds_ple; [apply P46|exact H2']]).
        assert (Q3 : oholds (lb m7) (v_n q) q3 ozL) by (eapply oholds_ple; [apply GG; intros b; specialize (N6 b); pose proof (cnt_le m6 b); lia|eapply oholds_ple; [apply P46|exact H3']]).
        assert (Q4 : oholds (lb m7) (v_n q) q4 ozU) by (eapply oholds_ple; [apply GG; intros b; specialize (N6 b); pose proof (cnt_le m6 b); lia|eapply oholds_ple; [apply P46|exact D3]]).
        assert (Q5 : oholds (lb m7) (v_n q) q5 (v_xs q)) by (eapply oholds_ple; [apply GG; intros b; specialize (N6 b); pose proof (cnt_le m6 b); lia|eapply oholds_ple; [apply F4|exact E3]]).
        assert (Q6 : oholds (lb m7) (v_m q) q6 (v_gs q)) by (eapply oholds_ple; [apply GG; intros b; specialize (N6 b); pose proof (cnt_le m6 b); lia|exact F3]).
        assert (RP7 : prel (lb m7) p q) by (revert RP6; apply prel_ple; apply GG; intros b; specialize (N6 b); pose proof (cnt_le m6 b); unfold ptot in N6; lia).
        destruct RP7. constructor; simpl; try assumption; try reflexivity.
      * exact Logic.I.
    + assert (DJ : forall b, ptot p b + otot ktot (sk s) b + occ q1 b + occ q2 b + occ q3 b + occ q4 b <= 1) by (intros b; rewrite <- N4; apply cnt_le).
      pose proof (redk_nil D2) as K0.
      destruct (@delete_spec m4 _ _ _ D2 H1') as (m5 & -> & E1). cbn [bind]. pose proof (redk_step K0 E1) as K1.
      assert (Y2 : oholds (lb m5) (v_m q) q2 olam) by (eapply oholds_ple; [apply K1; intros b; specialize (DJ b); lia|exact H2']).
      destruct (@delete_spec m5 _ _ _ (proj1 (proj2 E1)) Y2) as (m6 & -> & E2). cbn [bind]. pose proof (redk_step K1 E2) as K2.
      assert (Y3 : oholds (lb m6) (v_n q) q3 ozL) by (eapply oholds_ple; [apply K2; intros b; specialize (DJ b); lia|exact H3']).
      destruct (@delete_spec m6 _ _ _ (proj1 (proj2 E2)) Y3) as (m7 & -> & E3). cbn [bind]. pose proof (redk_step K2 E3) as K3.
      assert (Y4 : oholds (lb m7) (v_n q) q4 ozU) by (eapply oholds_ple; [apply K3; intros b; specialize (DJ b); lia|exact D3]).
      destruct (@delete_spec m7 _ _ _ (proj1 (proj2 E3)) Y4) as (m8 & -> & E4). cbn [bind]. pose proof (redk_step K3 E4) as (K41 & K42 & K43 & K44).
      split; [reflexivity|]. constructor; simpl.
      * congruence.
      * auto.
      * intros b. specialize (K44 b). specialize (N4 b). simpl in K44. lia.
      * rewrite Eq. simpl. revert RP. apply prel_ple; (eapply ple_trans; [apply P4|apply K43; intros b; specialize (DJ b); unfold ptot in DJ; lia]).
      * rewrite Er. exact Logic.I.
      * destruct (sk s) as [t|]; auto. destruct RK as (_ & K). split; [discriminate|]. simpl in DJ.
        revert K. apply krel_ple; (eapply ple_trans; [apply P4|apply K43; intros b; specialize (DJ b); unfold ktot in DJ; lia]).
  - (* NlpInfo *) apply on_tnlp_sim; auto. intros p t r T F _. simpl. pose proof T as []. rewrite tr_n0, tr_m0, tr_nj0, tr_nh0, tr_st0. apply tsim_same; auto.
  - apply on_tnlp_sim; auto. intros p t r T F _. unfold get_bounds. pose proof T as []. rewrite tr_n0, tr_m0.
    rewrite (@read_lb _ _ _ _ tr_xL0), (@read_lb _ _ _ _ tr_xU0), (@read_g _ _ _ _ tr_gL0), (@read_g _ _ _ _ tr_gU0). apply tsim_same; auto.
  - apply on_tnlp_sim; auto. intros p t r T F _. unfold get_scaling. pose proof T as []. rewrite tr_n0, tr_m0.
    rewrite (@read_opt_lb _ _ _ _ tr_xs0), (@read_opt_lb _ _ _ _ tr_gs0), tr_obj0. apply tsim_same; auto.
  - apply on_tnlp_sim; auto. intros p t r T F _. unfold get_start. pose proof T as []. rewrite tr_n0, tr_m0.
    rewrite (@read_lb _ _ _ _ tr_sx0), (@read_opt_lb _ _ _ _ tr_szL0), (@read_opt_lb _ _ _ _ tr_szU0), (@read_opt_lb _ _ _ _ tr_slam0).
    rewrite (is_some_oholds _ _ _ _ tr_szL0), (is_some_oholds _ _ _ _ tr_szU0), (is_some_oholds _ _ _ _ tr_slam0).
    destruct init_x, init_z, init_lambda; cbn [bind]; destruct (is_some (r_zL r)), (is_some (r_zU r)), (is_some (r_lam r)); apply tsim_same; auto.
  - apply on_tnlp_sim; auto. intros p t r T F S'. apply eval_sim; auto. intros q t' r' _ E1 E2 E3 E4 E5 E6 _. destruct T. congruence.
  - apply on_tnlp_sim; auto. intros p t r T F S'. apply eval_sim; auto. intros q t' r' _ E1 E2 E3 E4 E5 E6 _. destruct T. congruence.
  - apply on_tnlp_sim; auto. intros p t r T F S'. apply eval_sim; auto. intros q t' r' _ E1 E2 E3 E4 E5 E6 _. destruct T. congruence.
  - apply on_tnlp_sim; auto. intros p t r T F S'. apply eval_sim; auto. intros q t' r' _ E1 E2 E3 E4 E5 E6 _. destruct T. congruence.
  - (* EvalH *)
    apply on_tnlp_sim; auto. intros p t r T F S'. pose proof (apply_new_x_sim new_x x T F S') as H.
    destruct (apply_new_x junk new_x x t (sm s)) as [[t' m']|], (point_after new_x x r) as [q|]; try contradiction; [|exact Logic.I].
    cbn [bind fst snd]. destruct H as (_ & H1 & H2 & H3 & H4 & H5).
    rewrite (@seen_x_holds _ p t' (with_point r q) m' eq_refl H3). cbn [bind r_point with_point].
    pose proof (@lambda_copy_sim m' t' lam H2) as L. rewrite (tr_m H3) in L. simpl r_prob in L.
    destruct (match lam with None => _ | Some _ => _ end) as [l|].
    + destruct L as (m2 & -> & L1 & L2 & L3 & L4). cbn [bind fst snd]. simpl.
      split. { rewrite (tr_h H3), (tr_user H3), <- reply_answered. reflexivity. }
      split; [congruence|split; [exact L2|split; [|split]]].
      * revert H3. apply trel_ple; apply L3.
      * intros a. rewrite L4. apply H4.
      * intros z D. eapply ple_trans; [apply H5; exact D|apply L3].
    + rewrite L. exact Logic.I.
  - (* CbWritesX *)
    apply on_tnlp_sim; auto. intros p t r T F S'.
    pose proof (apply_new_x_sim true x T F S') as H. unfold apply_new_x in H. pose proof (tr_ncx T) as HN.
    destruct (t_ncx t) as [q|] eqn:EQ.
    + destruct (r_point r); [|destruct q; contradiction].
      destruct (write (t_n t) x (Some q) (sm s)) as [m'|]; cbn [bind] in *; destruct (point_after true x r); try contradiction; cbn [bind]; exact H.
    + destruct (r_point r); [contradiction|exact Logic.I].
  - apply on_tnlp_sim; auto. intros p t r T F _. pose proof T as []. rewrite tr_inter0. destruct (v_inter (r_prob r)).
    + rewrite tr_user0. pose proof (tsim_same [OCallInter n args (s_user (r_out r))] T F) as TS. simpl in *.
      destruct TS as (_ & A & B & C & D & E). split; [reflexivity|split; [reflexivity|split; [exact F|split; [|split; auto]]]].
      destruct C; constructor; simpl; assumption || reflexivity.
    + apply tsim_same; auto.
  - apply on_tnlp_sim; auto. intros p t r T F _. pose proof T as []. rewrite tr_ip0, reply_answered. destruct (r_incb r); [|exact Logic.I].
    simpl. split; [reflexivity|split; [reflexivity|split; [exact F|split; [|split; auto]]]].
    + destruct T; constructor; simpl; assumption || reflexivity.
    + intros; apply ple_refl.
  - (* Finalize *)
    unfold on_tnlp.
    destruct (sp s) as [p|] eqn:Ep, (vp v) as [q|] eqn:Eq; try contradiction; [|exact Logic.I].
    destruct (sr s) as [t|] eqn:Et, (vr v) as [r|] eqn:Er; try contradiction; [|exact Logic.I].
    destruct RT as (K & T). pose proof T as []. unfold finalize.
    rewrite tr_n0, tr_m0, tr_ox0, tr_ozL0, tr_ozU0, tr_og0, tr_olam0, tr_oobj0, <- CLE.
    pose proof (write_out_sim (sm s) (v_n (r_prob r)) x (s_x (r_out r))) as H1.
    destruct (put _ x _ _) as [c1|]; [rewrite H1; cbn [bind]|rewrite H1; exact Logic.I].
    pose proof (write_out_sim (Mem c1 (lb (sm s)) (nxt (sm s))) (v_n (r_prob r)) zL (s_mL (r_out r))) as H2. cbn [cl] in H2.
    destruct (put _ zL _ _) as [c2|]; [rewrite H2; cbn [bind lb nxt] in *|rewrite H2; exact Logic.I].
    pose proof (write_out_sim (Mem c2 (lb (sm s)) (nxt (sm s))) (v_n (r_prob r)) zU (s_mU (r_out r))) as H3. cbn [cl] in H3.
    destruct (put _ zU _ _) as [c3|]; [rewrite H3; cbn [bind lb nxt] in *|rewrite H3; exact Logic.I].
    pose proof (write_out_sim (Mem c3 (lb (sm s)) (nxt (sm s))) (v_m (r_prob r)) g (s_g (r_out r))) as H4. cbn [cl] in H4.
    destruct (put _ g _ _) as [c4|]; [rewrite H4; cbn [bind lb nxt] in *|rewrite H4; exact Logic.I].
    pose proof (write_out_sim (Mem c4 (lb (sm s)) (nxt (sm s))) (v_m (r_prob r)) lam (s_mg (r_out r))) as H5. cbn [cl] in H5.
    destruct (put _ lam _ _) as [c5|]; [rewrite H5; cbn [bind lb nxt] in *|rewrite H5; exact Logic.I].
    pose proof (write_out_sim (Mem c5 (lb (sm s)) (nxt (sm s))) 1 [objv] (s_objv (r_out r))) as H6. cbn [cl] in H6.
    destruct (put 1 _ _ _) as [c6|]; [rewrite H6; cbn [bind lb nxt fst snd] in *|rewrite H6; exact Logic.I].
    split; [reflexivity|]. constructor; simpl; auto; try (rewrite Er); auto.
  - (* SolveEnd *)
    destruct (sp s) as [p|] eqn:Ep, (vp v) as [q|] eqn:Eq; try contradiction; [|exact Logic.I]. simpl in RP.
    destruct (sr s) as [t|] eqn:Et, (vr v) as [r|] eqn:Er; try contradiction; [|exact Logic.I].
    destruct RT as (K & T). rewrite K in *. simpl in SU. unfold solve_end.
    assert (DJ : forall b, ptot p b + ttot t b <= 1) by (intros b; specialize (SU b); pose proof (cnt_le (sm s) b); lia).
    pose proof (redk_nil FR) as K0. pose proof T as [].
    destruct (@delete_spec (sm s) _ _ _ FR tr_sx0) as (m1 & -> & E1). cbn [bind]. pose proof (redk_step K0 E1) as K1.
    assert (Y2 : oholds (lb m1) (v_m (r_prob r)) (t_slam t) (r_lam r)) by (eapply oholds_ple; [apply K1; intros b; specialize (DJ b); unfold ttot in DJ; lia|eassumption]).
    destruct (@delete_spec m1 _ _ _ (proj1 (proj2 E1)) Y2) as (m2 & -> & E2). cbn [bind]. pose proof (redk_step K1 E2) as K2.
    assert (Y3 : oholds (lb m2) (v_n (r_prob r)) (t_szL t) (r_zL r)) by (eapply oholds_ple; [apply K2; intros b; specialize (DJ b); unfold ttot in DJ; lia|eassumption]).
    destruct (@delete_spec m2 _ _ _ (proj1 (proj2 E2)) Y3) as (m3 & -> & E3). cbn [bind]. pose proof (redk_step K2 E3) as K3.
    assert (Y4 : oholds (lb m3) (v_n (r_prob r)) (t_szU t) (r_zU r)) by (eapply oholds_ple; [apply K3; intros b; specialize (DJ b); unfold ttot in DJ; lia|eassumption]).
    destruct (@delete_spec m3 _ _ _ (proj1 (proj2 E3)) Y4) as (m4 & -> & E4). cbn [bind fst snd]. pose proof (redk_step K3 E4) as (K41 & K42 & K43 & K44).
    split; [reflexivity|]. constructor; simpl.
    + congruence.
    + auto.
    + intros b. specialize (K44 b). specialize (SU b). unfold ttot in SU. unfold ktot. simpl in K44. lia.
    + revert RP. apply prel_ple; apply K43; intros b; specialize (DJ b); unfold ptot, ttot in DJ; lia.
    + exact Logic.I.
    + split; [discriminate|]. pose proof (trel_krel T) as KR. revert KR. apply krel_ple; apply K43; intros b; specialize (DJ b); unfold ttot in DJ; lia.
  - (* GetCurrent *)
    destruct (sp s) as [p|] eqn:Ep, (vp v) as [q|] eqn:Eq; try contradiction; [|exact Logic.I].
    destruct (sr s) as [t|] eqn:Et, (vr v) as [r|] eqn:Er; try contradiction.
    + destruct RT as (K & T). split; [rewrite (tr_ip T); reflexivity|exact HR].
    + split; [reflexivity|exact HR].
  - (* FreeProblem *)
    destruct (sp s) as [p|] eqn:Ep, (vp v) as [q|] eqn:Eq; try contradiction; [|exact Logic.I]. simpl in RP.
    destruct (sr s) as [t|] eqn:Et, (vr v) as [r|] eqn:Er; try contradiction; [exact Logic.I|].
    unfold free_problem. simpl in SU.
    assert (DJ : forall b, ptot p b + otot ktot (sk s) b <= 1) by (intros b; specialize (SU b); pose proof (cnt_le (sm s) b); lia).
    assert (exists m0, destroy_opt (sk s) (sm s) = Ok m0 /\ redk (sm s) (otot ktot (sk s)) m0) as (m0 & -> & K0).
    { destruct (sk s) as [t|]; simpl.
      - destruct RK as (_ & K). apply destroy_spec; auto. intros b. specialize (DJ b). simpl in DJ. lia.
      - exists (sm s); split; auto. apply redk_nil; auto. }
    cbn [bind]. pose proof RP as [].
    assert (Y1 : oholds (lb m0) (v_n q) (p_xL p) (Some (v_xL q))) by (eapply oholds_ple; [apply K0; intros b; specialize (DJ b); unfold ptot in DJ; lia|eassumption]).
    destruct (@delete_spec m0 _ _ _ (proj1 (proj2 K0)) Y1) as (m1 & -> & E1). cbn [bind]. pose proof (redk_step K0 E1) as K1.
    assert (Y2 : oholds (lb m1) (v_n q) (p_xU p) (Some (v_xU q))) by (eapply oholds_ple; [apply K1; intros b; specialize (DJ b); unfold ptot in DJ; lia|eassumption]).
    destruct (@delete_spec m1 _ _ _ (proj1 (proj2 E1)) Y2) as (m2 & -> & E2). cbn [bind]. pose proof (redk_step K1 E2) as K2.
    assert (Y3 : gholds (lb m2) (v_m q) (p_gL p) (v_gL q)) by (eapply gholds_ple; [apply K2; intros b; specialize (DJ b); unfold ptot in DJ; lia|eassumption]).
    destruct (@delete_g m2 _ _ _ (proj1 (proj2 E2)) Y3) as (m3 & -> & E3). cbn [bind]. pose proof (redk_step K2 E3) as K3.
    assert (Y4 : gholds (lb m3) (v_m q) (p_gU p) (v_gU q)) by (eapply gholds_ple; [apply K3; intros b; specialize (DJ b); unfold ptot in DJ; lia|eassumption]).
    destruct (@delete_g m3 _ _ _ (proj1 (proj2 E3)) Y4) as (m4 & -> & E4). cbn [bind]. pose proof (redk_step K3 E4) as K4.
    assert (Y5 : oholds (lb m4) (v_n q) (p_xs p) (v_xs q)) by (eapply oholds_ple; [apply K4; intros b; specialize (DJ b); unfold ptot in DJ; lia|eassumption]).
    destruct (@delete_spec m4 _ _ _ (proj1 (proj2 E4)) Y5) as (m5 & -> & E5). cbn [bind]. pose proof (redk_step K4 E5) as K5.
    assert (Y6 : oholds (lb m5) (v_m q) (p_gs p) (v_gs q)) by (eapply oholds_ple; [apply K5; intros b; specialize (DJ b); unfold ptot in DJ; lia|eassumption]).
    destruct (@delete_spec m5 _ _ _ (proj1 (proj2 E5)) Y6) as (m6 & -> & E6). cbn [bind]. pose proof (redk_step K5 E6) as (Z1 & Z2 & Z3 & Z4).
    split; [reflexivity|]. constructor; simpl; auto.
    + congruence.
    + intros b. specialize (Z4 b). specialize (SU b). unfold ptot in SU. simpl in Z4. lia.
Qed.
End P.
