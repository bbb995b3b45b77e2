(** Proofs about the reducer. *)
From Coq Require Import Reals ZArith List Arith Bool Lia Lra Permutation Sorted.
From Verif Require Import TredModel TredSpec.
Import ListNotations.

(** ** sorting and the moving pointer *)
Lemma insert_perm a l : Permutation (insert a l) (a :: l).
Proof. induction l as [|b l IH]; cbn; auto. destruct (a <=? b)%Z; auto. rewrite IH. apply perm_swap. Qed.
Lemma isort_perm l : Permutation (isort l) l.
Proof. induction l as [|a l IH]; cbn; auto. rewrite insert_perm. auto. Qed.
Lemma insert_sorted a l : StronglySorted Z.le l -> StronglySorted Z.le (insert a l).
Proof.
  induction 1 as [|b l HS IH HF]; cbn; [repeat constructor|]. destruct (Z.leb_spec a b).
  - constructor; [constructor; auto|]. constructor; auto. eapply Forall_impl; [|exact HF]. cbn. lia.
  - constructor; auto. rewrite Forall_forall in *. intros x Hx. apply (Permutation_in _ (insert_perm a l)) in Hx. destruct Hx as [<-|Hx]; [lia|auto].
Qed.
Lemma isort_sorted l : StronglySorted Z.le (isort l).
Proof. induction l; cbn; [constructor|]. apply insert_sorted; auto. Qed.
Lemma strict l : StronglySorted Z.le l -> NoDup l -> StronglySorted Z.lt l.
Proof.
  induction 1 as [|a l HS IH HF]; intros ND; [constructor|]. inversion ND; subst. constructor; auto.
  rewrite Forall_forall in *. intros x Hx. specialize (HF x Hx). assert (a <> x) by (intros ->; auto). lia.
Qed.
Definition inv (i : Z) (sk S : list Z) : Prop := StronglySorted Z.lt sk /\ forall a, In a sk <-> In a S /\ (i <= a)%Z.
Lemma inv_start S m : valid S m -> inv 0 (isort S) S.
Proof.
  intros [ND F]. split.
  - apply strict; [apply isort_sorted|]. eapply Permutation_NoDup; [symmetry; apply isort_perm|auto].
  - intros a. rewrite Forall_forall in F. split; intros H.
    + apply (Permutation_in _ (isort_perm S)) in H. split; auto. apply F in H. lia.
    + destruct H. eapply Permutation_in; [symmetry; apply isort_perm|auto].
Qed.
Lemma skipped_in S i : skipped S i = true <-> In (Z.of_nat i) S.
Proof.
  unfold skipped. rewrite existsb_exists. split.
  - intros (x & H & E). apply Z.eqb_eq in E. subst. auto.
  - intros H. exists (Z.of_nat i). split; auto. apply Z.eqb_refl.
Qed.
Lemma pop_ok i sk S : inv (Z.of_nat i) sk S -> exists sk', pop sk (Z.of_nat i) = (skipped S i, sk') /\ inv (Z.of_nat (Datatypes.S i)) sk' S.
Proof.
  intros [HS HI]. unfold pop. destruct sk as [|a sk'].
  - exists []. assert (skipped S i = false) as ->.
    { apply not_true_is_false. rewrite skipped_in. intros H. apply (HI (Z.of_nat i)). split; auto. lia. }
    split; auto. split; [constructor|]. intros a. split; [intros []|]. intros [H L]. apply (HI a). split; auto. lia.
  - inversion HS as [|x y HS' HF]; subst. rewrite Forall_forall in HF. destruct (Z.eqb_spec a (Z.of_nat i)) as [->|NE].
    + exists sk'. assert (skipped S i = true) as -> by (apply skipped_in; apply (HI (Z.of_nat i)); left; auto).
      split; auto. split; auto. intros a. split.
      * intros H. destruct (proj1 (HI a) (or_intror H)). split; auto. specialize (HF a H). lia.
      * intros [H L]. destruct (proj2 (HI a)) as [<-|]; auto; try lia. split; auto. lia.
    + exists (a :: sk'). destruct (proj1 (HI a) (or_introl eq_refl)) as [Ha La]. assert (skipped S i = false) as ->.
      { apply not_true_is_false. rewrite skipped_in. intros H. destruct (proj2 (HI (Z.of_nat i))) as [->|H1]; auto; try lia.
        - split; auto. lia. - specialize (HF _ H1). lia. }
      split; auto. split; auto. intros b. rewrite HI. split; intros [H L]; split; auto; try lia.
      assert (In b (a :: sk')) as [<-|Hb] by (apply HI; auto); [lia|]. specialize (HF b Hb). lia.
Qed.

(** ** flags: which positions are left out *)
Fixpoint number (c : nat) (fl : list bool) : list (option nat) :=
  match fl with [] => [] | true :: fl => None :: number c fl | false :: fl => Some c :: number (S c) fl end.
Fixpoint select {X} (fl : list bool) (v : list X) : list X :=
  match fl, v with b :: fl, x :: v => if b then select fl v else x :: select fl v | _, _ => [] end.
Fixpoint nk (fl : list bool) : nat := match fl with [] => 0 | true :: fl => nk fl | false :: fl => S (nk fl) end.
Definition flags (S : list Z) (i m : nat) : list bool := map (skipped S) (seq i m).
Lemma keep_map_ok S : forall m i c sk, inv (Z.of_nat i) sk S -> keep_map (Z.of_nat i) m sk c = number c (flags S i m).
Proof.
  unfold flags. induction m as [|m IH]; intros i c sk HI; cbn; auto. destruct (pop_ok i sk S HI) as (sk' & P & HI').
  assert (E1 : (Z.of_nat i + 1 = Z.of_nat (Datatypes.S i))%Z) by lia. rewrite E1.
  unfold pop in P. destruct sk as [|a sk0].
  - injection P as <- <-. rewrite IH; auto.
  - destruct (a =? Z.of_nat i)%Z; injection P as <- <-; rewrite IH; auto.
Qed.
Lemma n_kept_number fl : forall c, n_kept (number c fl) = nk fl.
Proof. unfold n_kept. induction fl as [|[|] fl IH]; intros c; cbn; auto. Qed.
Lemma kept_len S m : forall i, length (filter (fun i => negb (skipped S i)) (seq i m)) = nk (flags S i m).
Proof. unfold flags. induction m as [|m IH]; intros i; cbn; auto. destruct (skipped S i); cbn; auto. Qed.
Lemma select_spec {X} S (v : list X) : forall i, select (flags S i (length v)) v = map snd (filter (fun p => negb (skipped S (fst p))) (combine (seq i (length v)) v)).
Proof. unfold flags. induction v as [|x v IH]; intros i; cbn; auto. destruct (skipped S i); cbn; rewrite IH; auto. Qed.
Lemma keep_select {X} S (v : list X) : keep_of S v = select (flags S 0 (length v)) v.
Proof. symmetry. apply select_spec. Qed.
Lemma flags_len S i m : length (flags S i m) = m.
Proof. unfold flags. rewrite map_length, seq_length. auto. Qed.
Lemma upd_mid {X} (a : list X) x y b : upd (length a) x (a ++ y :: b) = Some (a ++ x :: b).
Proof. induction a; cbn; auto. rewrite IHa. auto. Qed.
Lemma gather_ok {X} : forall fl (v done rest : list X), length v = length fl -> length rest = nk fl ->
  gather (number (length done) fl) v (done ++ rest) = Some (done ++ select fl v).
Proof.
  induction fl as [|b fl IH]; intros v done rest L1 L2; destruct v as [|x v]; try discriminate; cbn in *.
  - destruct rest; [|discriminate]. auto.
  - destruct b; cbn.
    + apply IH; auto.
    + destruct rest as [|y rest]; [discriminate|]. rewrite upd_mid. injection L1 as L1. injection L2 as L2.
      replace (done ++ x :: rest) with ((done ++ [x]) ++ rest) by (rewrite <- app_assoc; auto).
      replace (S (length done)) with (length (done ++ [x])) by (rewrite app_length; cbn; lia).
      rewrite IH; auto. rewrite <- app_assoc. auto.
Qed.
Lemma gather_keep {X} S m (v out : list X) : length v = m -> length out = nk (flags S 0 m) ->
  gather (number 0 (flags S 0 m)) v out = Some (keep_of S v).
Proof.
  intros L1 L2. rewrite keep_select, L1. apply (gather_ok (flags S 0 m) v [] out); rewrite ?flags_len; auto.
Qed.

(** ** expanding multipliers *)
Section Exp.
Context {V : Type}.
Variable zero : V.
Lemma expand_ok : forall fl (pre lam : list V), length lam = nk fl ->
  exists e, expand zero (number (length pre) fl) (pre ++ lam) = Some e /\ length e = length fl /\ select fl e = lam /\
    forall i, nth_error fl i = Some true -> nth_error e i = Some zero.
Proof.
  induction fl as [|b fl IH]; intros pre lam L; cbn in *.
  - destruct lam; [|discriminate]. exists []. repeat split; auto. intros [|i]; discriminate.
  - destruct b; cbn.
    + destruct (IH pre lam L) as (e & Q & L1 & S1 & Z1). rewrite Q. exists (zero :: e). cbn. repeat split; auto. intros [|i]; cbn; auto.
    + destruct lam as [|x lam]; [discriminate|]. injection L as L.
      rewrite nth_error_app2, Nat.sub_diag by lia. cbn.
      destruct (IH (pre ++ [x]) lam L) as (e & Q & L1 & S1 & Z1). rewrite app_length, <- app_assoc in Q. cbn in Q. rewrite Nat.add_1_r in Q.
      rewrite Q. exists (x :: e). cbn. repeat split; auto; try congruence. intros [|i]; cbn; auto. discriminate.
Qed.
Lemma expand_extends S m lam : length lam = length (kept S m) ->
  exists e, expand zero (number 0 (flags S 0 m)) lam = Some e /\ extends zero S m lam e.
Proof.
  unfold kept. rewrite kept_len. intros L. destruct (expand_ok (flags S 0 m) [] lam L) as (e & Q & L1 & S1 & Z1).
  exists e. split; [exact Q|]. rewrite flags_len in L1. split; auto. split.
  - rewrite keep_select, L1. auto.
  - intros i Hi Hs. apply Z1. unfold flags. rewrite nth_error_map.
    rewrite (nth_error_nth' (seq 0 m) 0%nat) by (rewrite seq_length; auto). cbn. rewrite seq_nth by auto. cbn. congruence.
Qed.
End Exp.

(** ** the Jacobian *)
Definition rowflag (fl : list bool) (r : Z) : bool := nth (Z.to_nat r) fl false.
Fixpoint rank (fl : list bool) (n : nat) : nat :=
  match n, fl with S n, true :: fl => rank fl n | S n, false :: fl => S (rank fl n) | _, _ => O end.
Lemma number_nth : forall fl c n, (n < length fl)%nat -> nth_error (number c fl) n = Some (if nth n fl false then None else Some (c + rank fl n)%nat).
Proof.
  induction fl as [|b fl IH]; intros c n L; cbn in L; [lia|]. destruct n as [|n].
  - destruct b; cbn; rewrite ?Nat.add_0_r; auto.
  - destruct b; cbn; rewrite IH by lia; destruct (nth n fl false); auto. do 2 f_equal. lia.
Qed.
Lemma map_at_ok fl r : (0 <= r < Z.of_nat (length fl))%Z -> map_at (number 0 fl) r = Some (if rowflag fl r then None else Some (rank fl (Z.to_nat r))).
Proof.
  intros H. unfold map_at, rowflag. destruct (Z.ltb_spec r 0); [lia|]. rewrite number_nth by lia. reflexivity.
Qed.
Definition inrows (fl : list bool) (ir : list Z) := Forall (fun i => (0 <= i < Z.of_nat (length fl))%Z) ir.
Definition jf (fl : list bool) (ir : list Z) : list bool := map (rowflag fl) ir.
Lemma count_rows_ok fl ir : inrows fl ir -> count_rows (number 0 fl) ir = Some (nk (jf fl ir), (length ir - nk (jf fl ir))%nat).
Proof.
  assert (LE : forall ir, (nk (jf fl ir) <= length ir)%nat).
  { clear. induction ir as [|r ir IH]; auto. change (jf fl (r :: ir)) with (rowflag fl r :: jf fl ir). destruct (rowflag fl r); cbn [nk length]; lia. }
  induction 1 as [|r ir H HF IH]; cbn [count_rows]; auto. rewrite map_at_ok by auto. rewrite IH. specialize (LE ir). change (jf fl (r :: ir)) with (rowflag fl r :: jf fl ir).
  destruct (rowflag fl r); cbn [nk length]; f_equal; f_equal; lia.
Qed.
Fixpoint posns (i : Z) (fl : list bool) : list Z :=
  match fl with [] => [] | b :: fl => if b then i :: posns (i + 1) fl else posns (i + 1) fl end.
Lemma split_rows_ok fl : forall ir jc i, inrows fl ir -> length jc = length ir ->
  split_rows (number 0 fl) 0 i ir jc =
    Some (select (jf fl ir) (map (fun r => Z.of_nat (rank fl (Z.to_nat r))) ir), select (jf fl ir) jc, posns i (jf fl ir)).
Proof.
  induction ir as [|r ir IH]; intros jc i HF L; destruct jc as [|c jc]; try discriminate; auto.
  inversion HF; subst. cbn [split_rows]. rewrite Z.sub_0_r, map_at_ok by auto. rewrite IH by auto. cbn.
  destruct (rowflag fl r); auto. rewrite Z.add_0_r. auto.
Qed.
Lemma posns_ge fl : forall i, Forall (fun a => (i <= a)%Z) (posns i fl).
Proof.
  induction fl as [|b fl IH]; intros i; cbn; auto. destruct b; [constructor; [lia|]|]; eapply Forall_impl; try apply IH; cbn; lia.
Qed.
Lemma drop_posns {V} : forall (v : list V) fl i, length fl = length v -> drop_at i (posns i fl) v = select fl v.
Proof.
  induction v as [|x v IH]; intros fl i L; destruct fl as [|b fl]; try discriminate; auto. injection L as L. cbn.
  destruct b; cbn.
  - rewrite Z.eqb_refl. rewrite IH; auto.
  - pose proof (posns_ge fl (i + 1)) as G. destruct (posns (i + 1) fl) as [|a p] eqn:Ep; cbn.
    + rewrite <- Ep, IH; auto.
    + inversion G; subst. destruct (Z.eqb_spec a i); [lia|]. rewrite <- Ep, IH; auto.
Qed.
Lemma posns_len fl : forall i, length (posns i fl) = (length fl - nk fl)%nat.
Proof.
  assert (LE : forall fl, (nk fl <= length fl)%nat) by (clear; induction fl as [|[|] fl IH]; cbn; lia).
  induction fl as [|b fl IH]; intros i; auto. specialize (LE fl). cbn [posns]. destruct b; cbn [length nk posns]; rewrite IH; lia.
Qed.
Lemma select_len {X} : forall fl (v : list X), length v = length fl -> length (select fl v) = nk fl.
Proof. induction fl as [|[|] fl IH]; intros [|x v] L; try discriminate; cbn; auto. Qed.
(** the triplets of a kept row are those of the original row *)
Lemma jmat_select fl i : nth i fl false = false -> (i < length fl)%nat ->
  forall ir jc v c, inrows fl ir -> length jc = length ir -> length v = length ir ->
  jmat (select (jf fl ir) (map (fun r => Z.of_nat (rank fl (Z.to_nat r))) ir)) (select (jf fl ir) jc) (select (jf fl ir) v) (Z.of_nat (rank fl i)) c
    = jmat ir jc v (Z.of_nat i) c.
Proof.
  intros Hf Hi. assert (INJ : forall fl a b, (a < length fl)%nat -> (b < length fl)%nat -> nth a fl false = false -> nth b fl false = false -> rank fl a = rank fl b -> a = b).
  { clear. induction fl as [|x fl IH]; intros a b La Lb Ha Hb E; cbn in *; [lia|].
    destruct a, b; auto.
    - destruct x; [discriminate|]. cbn in E. discriminate.
    - destruct x; [discriminate|]. cbn in E. discriminate.
    - f_equal. apply IH; auto; try lia. destruct x; cbn in E; lia. }
  induction ir as [|r ir IH]; intros jc v c HF L1 L2; destruct jc as [|j jc]; try discriminate; destruct v as [|x v]; try discriminate; auto.
  inversion HF as [|? ? Hr HF']; subst. injection L1 as L1. injection L2 as L2.
  specialize (IH jc v c HF' L1 L2). change (jf fl (r :: ir)) with (rowflag fl r :: jf fl ir). cbn [map select jmat]. destruct (rowflag fl r) eqn:Er.
  - rewrite IH. destruct (Z.eqb_spec r (Z.of_nat i)) as [->|NE].
    + unfold rowflag in Er. rewrite Nat2Z.id in Er. congruence.
    + cbn. lra.
  - cbn. rewrite IH. f_equal.
    assert ((Z.of_nat (rank fl (Z.to_nat r)) =? Z.of_nat (rank fl i))%Z = (r =? Z.of_nat i)%Z) as ->; auto.
    destruct (Z.eqb_spec r (Z.of_nat i)) as [->|NE].
    + rewrite Nat2Z.id. apply Z.eqb_refl.
    + apply Z.eqb_neq. intros E. apply NE. apply Nat2Z.inj in E. unfold rowflag in Er. apply INJ in E; auto; lia.
Qed.
Lemma kept_rank S : forall m s k i, nth_error (filter (fun i => negb (skipped S i)) (seq s m)) k = Some i ->
  (s <= i < s + m)%nat /\ skipped S i = false /\ k = rank (flags S s m) (i - s).
Proof.
  unfold flags. induction m as [|m IH]; intros s k i; cbn [seq filter].
  - destruct k; discriminate.
  - destruct (skipped S s) eqn:Es; cbn [negb].
    + intros H. destruct (IH _ _ _ H) as (A & B & C). split; [lia|]. split; auto.
      replace (i - s)%nat with (Datatypes.S (i - Datatypes.S s)) by lia. cbn. rewrite Es. auto.
    + destruct k as [|k]; cbn [nth_error].
      * intros Q. injection Q as <-. split; [lia|]. split; auto. rewrite Nat.sub_diag. auto.
      * intros H. destruct (IH _ _ _ H) as (A & B & C). split; [lia|]. split; auto.
        replace (i - s)%nat with (Datatypes.S (i - Datatypes.S s)) by lia. cbn. rewrite Es. auto.
Qed.
Lemma flags_nth S m i : (i < m)%nat -> nth i (flags S 0 m) false = skipped S i.
Proof.
  intros H. unfold flags. rewrite (nth_indep _ false (skipped S 0)) by (rewrite map_length, seq_length; auto).
  rewrite map_nth, seq_nth by auto. auto.
Qed.

(** ** bounds *)
Lemma nth_tl {X} (d : X) j xs : nth j (match xs with [] => [] | _ :: t => t end) d = nth (S j) xs d.
Proof. destruct xs; cbn; auto. destruct j; auto. Qed.
Lemma edit_ok {V} (zero huge mhuge : V) L U F : forall xl xu xs i sl su sf, length xu = length xl ->
  inv (Z.of_nat i) sl L -> inv (Z.of_nat i) su U -> inv (Z.of_nat i) sf F ->
  exists xl' xu', edit_bounds zero huge mhuge (Z.of_nat i) xl xu xs sl su sf = (xl', xu') /\ length xl' = length xl /\ length xu' = length xl /\
   forall j, (j < length xl)%nat ->
     nth j xl' zero = (if skipped F (i + j) then nth j xs zero else if skipped L (i + j) then mhuge else nth j xl zero) /\
     nth j xu' zero = (if skipped F (i + j) then nth j xs zero else if skipped U (i + j) then huge else nth j xu zero).
Proof.
  induction xl as [|l xl IH]; intros xu xs i sl su sf LE HL HU HF; destruct xu as [|u xu]; try discriminate.
  { exists [], []. repeat split; auto; cbn in *; lia. }
  injection LE as LE. cbn [edit_bounds].
  destruct (pop_ok i sl L HL) as (sl' & -> & HL'). destruct (pop_ok i su U HU) as (su' & -> & HU'). destruct (pop_ok i sf F HF) as (sf' & -> & HF').
  assert (E1 : (Z.of_nat i + 1 = Z.of_nat (S i))%Z) by lia.
  destruct (IH xu (match xs with [] => [] | _ :: t => t end) (S i) sl' su' sf' LE HL' HU' HF') as (a & b & Q & La & Lb & N).
  assert (G : forall x0 t, nth 0 xs zero = x0 -> (forall j, nth j t zero = nth (S j) xs zero) -> t = match xs with [] => [] | _ :: t => t end ->
    exists xl' xu', (let (xl'', xu'') := edit_bounds zero huge mhuge (Z.of_nat i + 1) xl xu t sl' su' sf' in
       ((if skipped F i then x0 else if skipped L i then mhuge else l) :: xl'', (if skipped F i then x0 else if skipped U i then huge else u) :: xu'')) = (xl', xu') /\
     length xl' = length (l :: xl) /\ length xu' = length (l :: xl) /\
     forall j, (j < length (l :: xl))%nat ->
     nth j xl' zero = (if skipped F (i + j) then nth j xs zero else if skipped L (i + j) then mhuge else nth j (l :: xl) zero) /\
     nth j xu' zero = (if skipped F (i + j) then nth j xs zero else if skipped U (i + j) then huge else nth j (u :: xu) zero)).
  { intros x0 t E0 Et ->. rewrite E1, Q. eexists. eexists. split; [reflexivity|]. cbn [length]. split; [congruence|]. split; [congruence|].
    intros [|j] Hj.
    - rewrite Nat.add_0_r. cbn [nth]. rewrite <- E0. auto.
    - specialize (N j). cbn [nth]. rewrite <- (Et j). replace (i + S j)%nat with (S i + j)%nat by lia. apply N. lia. }
  destruct xs as [|x0 t]; apply G; auto. intros [|j]; auto.
Qed.

(** ** the objects reachable *)
Section R.
Context {W V : Type}.
Variables (T : tnlp W V) (g xl xu fx : list Z) (n m nzh : nat) (ir jc : list Z).
Hypothesis (WT : well T n m nzh ir jc) (VG : valid g m).
Notation fl := (flags g 0 m).
Notation jfl := (jf fl ir).
Definition fresh (r : red) : Prop := r_g r = isort g /\ r_xl r = isort xl /\ r_xu r = isort xu /\ r_fix r = isort fx /\ r_m r = None.
Definition ready (s : bool) (r : red) : Prop :=
  r_xl r = isort xl /\ r_xu r = isort xu /\ r_fix r = isort fx /\ r_m r = Some (nk fl) /\ r_map r = number 0 fl /\ r_style r = C_STYLE /\
  r_nred r = nk jfl /\ r_nskip r = (length ir - nk jfl)%nat /\ (s = true -> r_jskip r = Some (posns 0 jfl)).
Lemma shift0 l : map (fun a => (a - offset C_STYLE)%Z) l = l.
Proof. rewrite <- (map_id l) at 2. apply map_ext. intros a. cbn. lia. Qed.
Lemma rows_in : inrows fl ir.
Proof. unfold inrows. rewrite flags_len. exact (w_rows _ _ _ _ _ _ WT). Qed.
Lemma info_fresh w r : fresh r -> r_jskip r = None -> exists o w' r', get_info T w r = Some (o, w', r') /\
  (forall a, o = Some a -> a = (n, nk fl, nk jfl, nzh, C_STYLE) /\ ready false r').
Proof.
  intros (E1 & E2 & E3 & E4 & E5) EJ. unfold get_info. destruct (t_info T w) as [[[[[[n' m'] nz'] nh'] st']|] w1] eqn:Q.
  - apply (w_info _ _ _ _ _ _ WT) in Q. injection Q as -> -> -> -> ->. cbn [r_m r_g r_xl r_xu r_fix]. rewrite E5.
    rewrite E1, !shift0. rewrite (keep_map_ok g m 0 0 (isort g) (inv_start g m VG) : keep_map 0 m (isort g) 0 = number 0 fl).
    destruct (t_jacs T w1) as [[[ir' jc']|] w2] eqn:QJ.
    + apply (w_jacs _ _ _ _ _ _ WT) in QJ. injection QJ as -> ->. rewrite count_rows_ok by apply rows_in. rewrite n_kept_number.
      eexists. eexists. eexists. split; [reflexivity|]. intros a Qa. injection Qa as <-. split; auto.
      unfold ready. cbn [r_g r_xl r_xu r_fix r_m r_map r_style r_nred r_nskip r_jskip]. rewrite ?E2, ?E3, ?E4, ?shift0, ?E2, ?E3, ?E4, ?n_kept_number. repeat split; auto. discriminate.
    + eexists. eexists. eexists. split; [reflexivity|]. discriminate.
  - eexists. eexists. eexists. split; [reflexivity|]. discriminate.
Qed.
Lemma info_ready w s r : ready s r -> exists o w' r', get_info T w r = Some (o, w', r') /\ ready s r' /\
  (forall a, o = Some a -> a = (n, nk fl, nk jfl, nzh, C_STYLE)).
Proof.
  intros R. pose proof R as (E1 & E2 & E3 & E4 & E5 & E6 & E7 & E8 & E9). unfold get_info.
  destruct (t_info T w) as [[[[[[n' m'] nz'] nh'] st']|] w1] eqn:Q.
  - apply (w_info _ _ _ _ _ _ WT) in Q. injection Q as -> -> -> -> ->. cbn [r_m]. rewrite E4.
    eexists. eexists. eexists. split; [reflexivity|]. split.
    + unfold ready. cbn. repeat split; auto.
    + intros a Qa. injection Qa as <-. cbn. rewrite E7. auto.
  - eexists. eexists. eexists. split; [reflexivity|]. split; [exact R|]. discriminate.
Qed.
Lemma struct_ready w s r iRow jCol : ready s r -> length iRow = nk jfl -> length jCol = nk jfl ->
  exists o w' r', eval_jac_structure T iRow jCol w r = Some (o, w', r') /\
    (forall a b, o = Some (a, b) -> a = select jfl (map (fun r => Z.of_nat (rank fl (Z.to_nat r))) ir) /\ b = select jfl jc).
Proof.
  intros (E1 & E2 & E3 & E4 & E5 & E6 & E7 & E8 & E9) L1 L2. unfold eval_jac_structure.
  destruct (t_jacs T w) as [[[ir' jc']|] w2] eqn:QJ.
  - apply (w_jacs _ _ _ _ _ _ WT) in QJ. injection QJ as -> ->. rewrite E5, E6. cbn [offset].
    rewrite split_rows_ok by (try apply rows_in; apply (w_len _ _ _ _ _ _ WT)).
    assert (JL : length jfl = length ir) by (unfold jf; apply map_length).
    unfold overwrite. rewrite !select_len by (rewrite ?map_length, ?JL; auto; apply (w_len _ _ _ _ _ _ WT)).
    rewrite L1, L2, Nat.leb_refl, posns_len, JL, E8, (proj2 (Nat.leb_le _ _)) by lia.
    assert (S1 : skipn (nk jfl) iRow = []) by (rewrite <- L1; apply skipn_all).
    assert (S2 : skipn (nk jfl) jCol = []) by (rewrite <- L2; apply skipn_all).
    rewrite S1, S2, !app_nil_r.
    eexists. eexists. eexists. split; [reflexivity|]. intros a b Q. injection Q as <- <-. auto.
  - eexists. eexists. eexists. split; [reflexivity|]. discriminate.
Qed.
Lemma struct_keeps w s r iRow jCol o w' r' : ready s r -> eval_jac_structure T iRow jCol w r = Some (o, w', r') ->
  ready (match o with Some _ => true | None => false end) r'.
Proof.
  intros (E1 & E2 & E3 & E4 & E5 & E6 & E7 & E8 & E9). unfold eval_jac_structure.
  destruct (t_jacs T w) as [[[ir' jc']|] w2] eqn:QJ.
  - apply (w_jacs _ _ _ _ _ _ WT) in QJ. injection QJ as -> ->. rewrite E5, E6. cbn [offset].
    rewrite split_rows_ok by (try apply rows_in; apply (w_len _ _ _ _ _ _ WT)).
    destruct (overwrite _ iRow); [|discriminate]. destruct (overwrite _ jCol); [|discriminate].
    destruct (_ <=? _) eqn:LE; [|discriminate]. intros Q. injection Q as <- <- <-.
    assert (JL : length jfl = length ir) by (unfold jf; apply map_length).
    unfold ready. cbn. repeat split; auto. intros _. f_equal. rewrite E8.
    replace (length ir - nk jfl)%nat with (length (posns 0 jfl)) by (rewrite posns_len, JL; auto). apply firstn_all.
  - intros Q. injection Q as <- <- <-. unfold ready. cbn. repeat split; auto. discriminate.
Qed.
Lemma reach_inv i s r : reach T g xl xu fx i s r -> (if i then ready s r else fresh r /\ r_jskip r = None /\ s = false).
Proof.
  induction 1 as [junk|i s r w a w' r' H IH Q|s r iRow jCol w o w' r' H IH Q].
  - unfold new_red, fresh. destruct junk as [[[[? ?] ?] ?] ?]. cbn. auto 9.
  - destruct i.
    + destruct (info_ready w s r IH) as (o & w1 & r1 & Q1 & R1 & _). rewrite Q1 in Q. injection Q as _ _ <-. auto.
    + destruct IH as (F & J & ->). destruct (info_fresh w r F J) as (o & w1 & r1 & Q1 & R1). rewrite Q1 in Q. injection Q as -> _ <-. apply (R1 _ eq_refl).
  - eapply struct_keeps; eauto.
Qed.
End R.
