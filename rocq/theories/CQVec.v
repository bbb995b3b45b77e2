(** The vector operations of CQModel, element by element. *)
From Coq Require Import Reals List Arith Bool Lra Lia.
From Verif Require Import CQModel CQSpec.
Import ListNotations.
Open Scope R_scope.

Lemma mk_len n f : length (mk n f) = n.
Proof. unfold mk. rewrite map_length, seq_length. reflexivity. Qed.
Lemma mk_el n f i : (i < n)%nat -> el (mk n f) i = f i.
Proof.
  intros H. unfold el, mk. rewrite (nth_indep _ 0 (f O)) by (rewrite map_length, seq_length; lia).
  rewrite map_nth, seq_nth by lia. reflexivity.
Qed.
Lemma mk_is n f : vec_is (mk n f) n f.
Proof. split; [apply mk_len|]. intros i H. apply mk_el. exact H. Qed.
Lemma vis_len v n f : vec_is v n f -> dim v = n.
Proof. intros [H _]. exact H. Qed.
Lemma vis_el v n f i : vec_is v n f -> (i < n)%nat -> el v i = f i.
Proof. intros [_ H] Hi. apply H. exact Hi. Qed.
Lemma vis_ext v n f g : vec_is v n f -> (forall i, (i < n)%nat -> f i = g i) -> vec_is v n g.
Proof. intros [H1 H2] H. split; [exact H1|]. intros i Hi. rewrite H2 by exact Hi. apply H. exact Hi. Qed.
Lemma vis_self v n : length v = n -> vec_is v n (fun i => nth i v 0).
Proof. intros H. split; auto. Qed.
Lemma mk_is' n m f g : n = m -> (forall i, (i < m)%nat -> f i = g i) -> vec_is (mk n f) m g.
Proof. intros <- H. eapply vis_ext; [apply mk_is|]. exact H. Qed.
Lemma vmap_is h v n f : vec_is v n f -> vec_is (vmap h v) n (fun i => h (f i)).
Proof.
  intros H. unfold vmap. apply mk_is'; [apply (vis_len _ _ _ H)|]. intros i Hi. rewrite (vis_el _ _ _ _ H Hi). reflexivity.
Qed.
Lemma vmap2_is h v w n f g : vec_is v n f -> vec_is w n g -> vec_is (vmap2 h v w) n (fun i => h (f i) (g i)).
Proof.
  intros H H'. unfold vmap2. apply mk_is'; [apply (vis_len _ _ _ H)|]. intros i Hi.
  rewrite (vis_el _ _ _ _ H Hi), (vis_el _ _ _ _ H' Hi). reflexivity.
Qed.
Lemma vset_is n a : vec_is (vset n a) n (fun _ => a).
Proof. apply mk_is. Qed.

(** sums *)
Lemma sumn_ext n f g : (forall i, (i < n)%nat -> f i = g i) -> sumn n f = sumn n g.
Proof. induction n; intros H; cbn; [reflexivity|]. rewrite IHn, H by (intros; try apply H; lia). reflexivity. Qed.
Lemma sumn_plus n f g : sumn n (fun i => f i + g i) = sumn n f + sumn n g.
Proof. induction n; cbn; [ring|]. rewrite IHn. ring. Qed.
Lemma sumn_scal n a f : sumn n (fun i => a * f i) = a * sumn n f.
Proof. induction n; cbn; [ring|]. rewrite IHn. ring. Qed.
Lemma sumn_0 n : sumn n (fun _ => 0) = 0.
Proof. induction n; cbn; [ring|]. rewrite IHn. ring. Qed.
Lemma sumn_nonneg n f : (forall i, (i < n)%nat -> 0 <= f i) -> 0 <= sumn n f.
Proof. induction n; intros H; cbn; [lra|]. assert (0 <= f n) by (apply H; lia). assert (0 <= sumn n f) by (apply IHn; intros; apply H; lia). lra. Qed.
Lemma sumn_ge0 n f i : (forall i, (i < n)%nat -> 0 <= f i) -> (i < n)%nat -> f i <= sumn n f.
Proof.
  induction n; intros H Hi; [lia|]. cbn. assert (0 <= f n) by (apply H; lia). assert (0 <= sumn n f) by (apply sumn_nonneg; intros; apply H; lia).
  destruct (Nat.eq_dec i n) as [->|]; [lra|]. assert (f i <= sumn n f) by (apply IHn; [intros; apply H; lia|lia]). lra.
Qed.
Lemma lsum_eq n f : lsum n f = sumn n f.
Proof. unfold lsum. induction n; [reflexivity|]. rewrite seq_S, fold_left_app. cbn. rewrite IHn. reflexivity. Qed.
Lemma fold_seq {A} (g : A -> R -> A) (v : vec) a :
  fold_left g v a = fold_left (fun a i => g a (el v i)) (seq 0 (length v)) a.
Proof.
  revert a. induction v as [|x v IH]; intros a; [reflexivity|]. cbn -[el]. rewrite IH. rewrite <- seq_shift.
  unfold el at 3. cbn [nth]. generalize (g a x) as b. generalize (seq 0 (length v)) as l. induction l; intros b; [reflexivity|]. cbn. apply IHl.
Qed.
Lemma fold_sum (h : R -> R) v n f : vec_is v n f -> fold_left (fun a x => a + h x) v 0 = sumn n (fun i => h (f i)).
Proof.
  intros H. rewrite (fold_seq (fun a x => a + h x)). pose proof (lsum_eq (length v) (fun i => h (el v i))) as E. unfold lsum in E. rewrite E.
  destruct H as [H1 H2]. rewrite H1. apply sumn_ext. intros i Hi. unfold el. rewrite H2 by lia. reflexivity.
Qed.
Lemma asum_is v n f : vec_is v n f -> asum v = sumn n (fun i => Rabs (f i)).
Proof. apply fold_sum. Qed.
Lemma ssq_is v n f : vec_is v n f -> ssq v = sumn n (fun i => f i * f i).
Proof. apply (fold_sum (fun x => x * x)). Qed.
Lemma sumlogs_is v n f : vec_is v n f -> sumlogs v = sumn n (fun i => ln (f i)).
Proof. apply fold_sum. Qed.
Lemma dot_is v w n f g : vec_is v n f -> vec_is w n g -> dot v w = sumn n (fun i => f i * g i).
Proof.
  intros H H'. unfold dot. pose proof (lsum_eq (dim v) (fun i => el v i * el w i)) as E. unfold lsum in E. rewrite E.
  rewrite (vis_len _ _ _ H). apply sumn_ext. intros i Hi. rewrite (vis_el _ _ _ _ H Hi), (vis_el _ _ _ _ H' Hi). reflexivity.
Qed.
Lemma nrm2_sq v n f : vec_is v n f -> nrm2 v * nrm2 v = sumn n (fun i => f i * f i).
Proof.
  intros H. unfold nrm2. rewrite sqrt_sqrt; [apply (ssq_is _ _ _ H)|]. rewrite (ssq_is _ _ _ H). apply sumn_nonneg. intros. nra.
Qed.
Lemma fold_max v : forall a, let r := fold_left (fun a x => Rmax a (Rabs x)) v a in
  a <= r /\ (forall x, In x v -> Rabs x <= r) /\ (r = a \/ exists x, In x v /\ r = Rabs x).
Proof.
  induction v as [|x v IH]; intros a; cbn.
  - split; [lra|]. split; [tauto|]. left; reflexivity.
  - destruct (IH (Rmax a (Rabs x))) as (H1 & H2 & H3). set (r := fold_left _ v _) in *. cbv zeta in *.
    pose proof (Rmax_l a (Rabs x)). pose proof (Rmax_r a (Rabs x)).
    split; [lra|]. split.
    + intros y [<-|Hy]; [lra|apply H2; exact Hy].
    + destruct H3 as [H3|[y [Hy H3]]]; [|right; exists y; auto].
      unfold Rmax in H3 at 1. destruct (Rle_dec a (Rabs x)); [right; exists x; auto|left; exact H3].
Qed.
(** what norm_is NMax says, for one vector *)
Lemma amax_is v n f : vec_is v n f ->
  0 <= amax v /\ (forall i, (i < n)%nat -> Rabs (f i) <= amax v) /\ (amax v = 0 \/ exists i, (i < n)%nat /\ amax v = Rabs (f i)).
Proof.
  intros [H1 H2]. destruct (fold_max v 0) as (A1 & A2 & A3). fold (amax v) in *. split; [exact A1|]. split.
  - intros i Hi. rewrite <- H2 by exact Hi. apply A2. apply nth_In. lia.
  - destruct A3 as [A3|[x [Hx A3]]]; [left; exact A3|right].
    destruct (In_nth v x 0 Hx) as (i & Hi & E). exists i. split; [lia|]. rewrite <- H2 by lia. rewrite E. exact A3.
Qed.

(** norms *)
Lemma norm2_is t a b na fa nb fb : vec_is a na fa -> vec_is b nb fb -> norm_is t [(na, fa); (nb, fb)] (calc_norm2 t a b).
Proof.
  intros Ha Hb. destruct t; cbn.
  - rewrite (asum_is _ _ _ Ha), (asum_is _ _ _ Hb). ring.
  - rewrite (nrm2_sq _ _ _ Ha), (nrm2_sq _ _ _ Hb). f_equal. ring.
  - destruct (amax_is _ _ _ Ha) as (A0 & A1 & A2). destruct (amax_is _ _ _ Hb) as (B0 & B1 & B2).
    pose proof (Rmax_l (amax a) (amax b)). pose proof (Rmax_r (amax a) (amax b)). split.
    + intros f i [<-|[<-|[]]] Hi; cbn in *; [specialize (A1 i Hi)|specialize (B1 i Hi)]; lra.
    + unfold Rmax. destruct (Rle_dec (amax a) (amax b)).
      * destruct B2 as [B2|(i & Hi & B2)]; [left; exact B2|right; exists (nb, fb), i; auto].
      * destruct A2 as [A2|(i & Hi & A2)]; [left; exact A2|right; exists (na, fa), i; auto].
Qed.
Lemma norml_is t vs fs : Forall2 (fun v (f : fam) => vec_is v (fst f) (snd f)) vs fs -> norm_is t fs (calc_norm t vs).
Proof.
  intros H. destruct t; cbn.
  - assert (G : forall r, fold_left (fun r v => r + asum v) vs r = r + fold_right Rplus 0 (map (fun f : fam => sumn (fst f) (fun i => Rabs (snd f i))) fs)).
    { induction H as [|v f vs fs Hv H IH]; intros r; cbn; [ring|]. rewrite IH, (asum_is _ _ _ Hv). ring. }
    rewrite G. ring.
  - f_equal. assert (G : forall r, fold_left (fun r v => r + nrm2 v * nrm2 v) vs r = r + fold_right Rplus 0 (map (fun f : fam => sumn (fst f) (fun i => snd f i * snd f i)) fs)).
    { induction H as [|v f vs fs Hv H IH]; intros r; cbn; [ring|]. rewrite IH, (nrm2_sq _ _ _ Hv). ring. }
    rewrite G. ring.
  - assert (G : forall r, 0 <= r -> let q := fold_left (fun r v => Rmax r (amax v)) vs r in
        r <= q /\ (forall (f : fam) i, In f fs -> (i < fst f)%nat -> Rabs (snd f i) <= q) /\
        (q = r \/ q = 0 \/ exists (f : fam) i, In f fs /\ (i < fst f)%nat /\ q = Rabs (snd f i))).
    { induction H as [|v f vs fs Hv H IH]; intros r Hr; cbn.
      - split; [lra|]. split; [intros ? ? []|left; reflexivity].
      - destruct (amax_is _ _ _ Hv) as (A0 & A1 & A2). pose proof (Rmax_l r (amax v)). pose proof (Rmax_r r (amax v)).
        destruct (IH (Rmax r (amax v)) ltac:(lra)) as (B1 & B2 & B3). set (q := fold_left _ vs _) in *. cbv zeta.
        split; [lra|]. split.
        + intros g i [<-|Hg] Hi; [specialize (A1 i Hi); lra|apply (B2 g i Hg Hi)].
        + destruct B3 as [B3|[B3|(g & i & Hg & Hi & B3)]]; [|tauto|right; right; exists g, i; auto].
          unfold Rmax in B3 at 1. destruct (Rle_dec r (amax v)); [|left; exact B3]. right.
          destruct A2 as [A2|(i & Hi & A2)]; [left; lra|right; exists f, i; rewrite <- A2; auto]. }
    destruct (G 0 ltac:(lra)) as (_ & G2 & G3). split; [exact G2|]. destruct G3 as [G3|G3]; [left; exact G3|exact G3].
Qed.
Lemma norm_ext t fs gs r : Forall2 (fun f g : fam => fst f = fst g /\ forall i, (i < fst f)%nat -> Rabs (snd f i) = Rabs (snd g i)) fs gs ->
  norm_is t fs r -> norm_is t gs r.
Proof.
  intros H. destruct t; cbn.
  - intros ->. induction H as [|f g fs gs [E H0] H IH]; cbn; [reflexivity|]. rewrite IH, <- E. f_equal. apply sumn_ext. exact H0.
  - intros ->. f_equal. induction H as [|f g fs gs [E H0] H IH]; cbn; [reflexivity|]. rewrite IH, <- E. f_equal. apply sumn_ext. intros i Hi.
    specialize (H0 i Hi). rewrite <- (Rabs_right (snd f i * snd f i)) by nra. rewrite <- (Rabs_right (snd g i * snd g i)) by nra. rewrite !Rabs_mult, H0. reflexivity.
  - assert (G : forall g, In g gs -> exists f, In f fs /\ fst f = fst g /\ forall i, (i < fst f)%nat -> Rabs (snd f i) = Rabs (snd g i)).
    { clear -H. induction H as [|f g fs gs E H IH]; intros h; cbn; [tauto|]. intros [<-|Hh]; [exists f; auto|]. destruct (IH h Hh) as (f' & ? & ?). exists f'; auto. }
    assert (G' : forall f, In f fs -> exists g, In g gs /\ fst f = fst g /\ forall i, (i < fst f)%nat -> Rabs (snd f i) = Rabs (snd g i)).
    { clear -H. induction H as [|f g fs gs E H IH]; intros h; cbn; [tauto|]. intros [<-|Hh]; [exists g; auto|]. destruct (IH h Hh) as (f' & ? & ?). exists f'; auto. }
    intros [A1 A2]. split.
    + intros g i Hg Hi. destruct (G g Hg) as (f & Hf & E & E'). rewrite <- E' by lia. apply A1; [exact Hf|lia].
    + destruct A2 as [A2|(f & i & Hf & Hi & A2)]; [left; exact A2|right]. destruct (G' f Hf) as (g & Hg & E & E').
      exists g, i. rewrite <- E' by exact Hi. repeat split; auto. lia.
Qed.

(** expansion matrices *)
Lemma vupd_len v i a : length (vupd v i a) = length v.
Proof. revert i. induction v; intros [|i]; cbn; auto. Qed.
Lemma vupd_el v i a j : (i < length v)%nat -> el (vupd v i a) j = if Nat.eqb i j then a else el v j.
Proof.
  unfold el. revert i j. induction v as [|x v IH]; intros [|i] j H; cbn in *; try lia.
  - destruct j; reflexivity.
  - destruct j; cbn; [reflexivity|]. apply IH. lia.
Qed.
Lemma scat_ext p f g i : (forall k, (k < length p)%nat -> f k = g k) -> scat p f i = scat p g i.
Proof. intros H. unfold scat. apply sumn_ext. intros k Hk. rewrite H by exact Hk. reflexivity. Qed.
Lemma scat_scal p a f i : scat p (fun k => a * f k) i = a * scat p f i.
Proof. unfold scat. rewrite <- sumn_scal. apply sumn_ext. intros k _. destruct (Nat.eqb _ i); ring. Qed.
Lemma pmul_is p al x be y n f g : vec_is x (length p) f -> vec_is y n g -> (forall i, In i p -> (i < n)%nat) ->
  vec_is (pmul p al x be y) n (fun i => be * g i + al * scat p f i).
Proof.
  intros Hx Hy Hp. unfold pmul.
  assert (G : forall m, (m <= length p)%nat ->
     vec_is (fold_left (fun y k => vupd y (nth k p O) (el y (nth k p O) + al * el x k)) (seq 0 m) (vmap (Rmult be) y)) n
       (fun i => be * g i + al * sumn m (fun k => if Nat.eqb (nth k p O) i then f k else 0))).
  { induction m as [|m IH]; intros Hm.
    - cbn. eapply vis_ext; [apply vmap_is; exact Hy|]. intros i _. cbn. ring.
    - specialize (IH ltac:(lia)). rewrite seq_S, fold_left_app. cbn [fold_left plus].
      set (w := fold_left _ (seq 0 m) _) in *. destruct IH as [L E]. split; [rewrite vupd_len; exact L|].
      assert (Hin : (nth m p O < n)%nat) by (apply Hp, nth_In; lia).
      intros i Hi. fold (el (vupd w (nth m p O) (el w (nth m p O) + al * el x m)) i). rewrite vupd_el by (rewrite L; exact Hin).
      cbn [sumn]. destruct (Nat.eqb_spec (nth m p O) i) as [->|Ne].
      + unfold el at 1. rewrite E by exact Hi. rewrite (vis_el _ _ _ _ Hx) by lia. ring.
      + unfold el. rewrite E by exact Hi. ring. }
  apply (G (length p)). lia.
Qed.
Lemma ptmul_is p al x be y f g n m : vec_is x n f -> (forall i, In i p -> (i < n)%nat) -> m = length p ->
  (forall k, (k < m)%nat -> be * el y k = be * g k) ->
  vec_is (ptmul p al x be y) m (fun k => be * g k + al * f (nth k p O)).
Proof.
  intros Hx Hp -> Hy. unfold ptmul. apply mk_is'; [reflexivity|]. intros k Hk. rewrite Hy by exact Hk.
  rewrite (vis_el _ _ _ _ Hx); [reflexivity|]. apply Hp, nth_In. exact Hk.
Qed.
(** at the position of a bound stands its value *)
Lemma scat_at p f k : NoDup p -> (k < length p)%nat -> scat p f (nth k p O) = f k.
Proof.
  intros Hn Hk. unfold scat.
  assert (G : forall m, (m <= length p)%nat -> sumn m (fun j => if Nat.eqb (nth j p O) (nth k p O) then f j else 0) = if Nat.ltb k m then f k else 0).
  { induction m as [|m IH]; intros Hm; [reflexivity|]. cbn [sumn]. rewrite IH by lia.
    destruct (Nat.eq_dec m k) as [->|Ne].
    - rewrite Nat.eqb_refl. replace (Nat.ltb k k) with false by (symmetry; apply Nat.ltb_ge; lia).
      replace (Nat.ltb k (S k)) with true by (symmetry; apply Nat.ltb_lt; lia). ring.
    - replace (Nat.eqb (nth m p O) (nth k p O)) with false.
      + replace (Nat.ltb k (S m)) with (Nat.ltb k m); [ring|]. destruct (Nat.ltb_spec k m), (Nat.ltb_spec k (S m)); lia || reflexivity.
      + symmetry. apply Nat.eqb_neq. intros E. apply Ne. apply (proj1 (NoDup_nth p O) Hn); [lia|exact Hk|exact E]. }
  rewrite (G (length p)) by lia. replace (Nat.ltb k (length p)) with true by (symmetry; apply Nat.ltb_lt; exact Hk). reflexivity.
Qed.
Lemma scat_out p f i : ~ In i p -> scat p f i = 0.
Proof.
  intros H. unfold scat. transitivity (sumn (length p) (fun _ => 0)); [|apply sumn_0]. apply sumn_ext. intros k Hk.
  destruct (Nat.eqb_spec (nth k p O) i) as [<-|]; [|reflexivity]. exfalso. apply H, nth_In. exact Hk.
Qed.
Lemma scat_one p i : NoDup p -> scat p (fun _ => 1) i = if existsb (Nat.eqb i) p then 1 else 0.
Proof.
  intros Hn. destruct (existsb (Nat.eqb i) p) eqn:E.
  - apply existsb_exists in E. destruct E as (j & Hj & E). apply Nat.eqb_eq in E. subst j.
    destruct (In_nth p i O Hj) as (k & Hk & <-). apply (scat_at p (fun _ => 1)); auto.
  - apply scat_out. intros H. assert (existsb (Nat.eqb i) p = true) by (apply existsb_exists; exists i; split; [exact H|apply Nat.eqb_refl]). congruence.
Qed.
Lemma damp_is n pL pU : (forall i, In i pL -> (i < n)%nat) -> (forall i, In i pU -> (i < n)%nat) -> NoDup pL -> NoDup pU ->
  vec_is (fst (damp_LU n pL pU)) (length pL) (fun k => if existsb (Nat.eqb (nth k pL O)) pU then 0 else 1) /\
  vec_is (snd (damp_LU n pL pU)) (length pU) (fun k => if existsb (Nat.eqb (nth k pU O)) pL then 0 else 1).
Proof.
  intros HL HU NL NU. unfold damp_LU. cbn [fst snd].
  pose proof (pmul_is pL 1 (vset (length pL) 1) 0 (vset n 0) n _ _ (vset_is _ _) (vset_is _ _) HL) as A.
  pose proof (pmul_is pU (-1) (vset (length pU) 1) 1 _ n _ _ (vset_is _ _) A HU) as C. clear A.
  set (tmp := pmul pU (-1) _ _ _) in *.
  split.
  - eapply vis_ext; [eapply (ptmul_is pL 1 tmp 0 [] _ (fun _ => 0) n (length pL) C HL eq_refl); intros; ring|].
    intros k Hk. cbv beta. rewrite (scat_at pL (fun _ => 1)) by auto. rewrite (scat_one pU) by exact NU.
    destruct (existsb (Nat.eqb (nth k pL O)) pU); ring.
  - eapply vis_ext; [eapply (ptmul_is pU (-1) tmp 0 [] _ (fun _ => 0) n (length pU) C HU eq_refl); intros; ring|].
    intros k Hk. cbv beta. rewrite (scat_at pU (fun _ => 1)) by auto. rewrite (scat_one pL) by exact NL.
    destruct (existsb (Nat.eqb (nth k pU O)) pL); ring.
Qed.
Lemma pmsinvz_is p al s z x n fs fz g : vec_is s (length p) fs -> vec_is z (length p) fz -> vec_is x n g -> (forall i, In i p -> (i < n)%nat) ->
  vec_is (pmsinvz p al s z x) n (fun i => g i + al * scat p (fun k => fz k / fs k) i).
Proof.
  intros Hs Hz Hx Hp. unfold pmsinvz. eapply vis_ext; [apply pmul_is; [apply vmap2_is; [exact Hz|exact Hs]|exact Hx|exact Hp]|].
  intros i _. cbv beta. ring.
Qed.
Lemma mmul_is J al x y n m f : vec_is x n f -> mc J = n -> mr J = m ->
  vec_is (mmul J al x 0 y) m (fun i => al * sumn n (fun j => ment J i j * f j)).
Proof.
  intros Hx <- <-. unfold mmul. apply mk_is'; [reflexivity|]. intros i Hi. rewrite lsum_eq.
  rewrite (sumn_ext _ _ (fun j => ment J i j * f j)) by (intros j Hj; rewrite (vis_el _ _ _ _ Hx Hj); reflexivity). ring.
Qed.
Lemma mtmul_is J al x y n m f : vec_is x m f -> mc J = n -> mr J = m ->
  vec_is (mtmul J al x 0 y) n (fun j => al * sumn m (fun i => ment J i j * f i)).
Proof.
  intros Hx <- <-. unfold mtmul. apply mk_is'; [reflexivity|]. intros i Hi. rewrite lsum_eq.
  rewrite (sumn_ext _ _ (fun j => ment J j i * f j)) by (intros j Hj; rewrite (vis_el _ _ _ _ Hx Hj); reflexivity). ring.
Qed.

(** minimum *)
Lemma fold_min v : forall a, let r := fold_left Rmin v a in
  r <= a /\ (forall x, In x v -> r <= x) /\ (r = a \/ In r v).
Proof.
  induction v as [|x v IH]; intros a; cbn.
  - split; [lra|]. split; [tauto|]. left; reflexivity.
  - destruct (IH (Rmin a x)) as (H1 & H2 & H3). set (r := fold_left _ v _) in *. cbv zeta in *.
    pose proof (Rmin_l a x). pose proof (Rmin_r a x).
    split; [lra|]. split; [intros y [<-|Hy]; [lra|apply H2; exact Hy]|].
    destruct H3 as [H3|H3]; [|tauto]. unfold Rmin in H3. destruct (Rle_dec a x); [left; exact H3|right; left; symmetry; exact H3].
Qed.
Lemma vmin_is v n f : vec_is v n f -> (0 < n)%nat ->
  (forall i, (i < n)%nat -> vmin v <= f i) /\ exists i, (i < n)%nat /\ vmin v = f i.
Proof.
  intros [H1 H2] Hn. unfold vmin. destruct (fold_min v (el v 0)) as (A1 & A2 & A3). set (r := fold_left _ v _) in *. cbv zeta in *.
  split.
  - intros i Hi. rewrite <- H2 by exact Hi. apply A2, nth_In. lia.
  - destruct A3 as [A3|A3].
    + exists O. split; [exact Hn|]. rewrite <- H2 by exact Hn. exact A3.
    + destruct (In_nth v r 0 A3) as (i & Hi & E). exists i. split; [lia|]. rewrite <- H2 by lia. symmetry; exact E.
Qed.

(** fraction to the boundary *)
Definition stepok (tau a : R) (n : nat) (q dq : nat -> R) : Prop := forall k, (k < n)%nat -> q k + a * dq k >= (1 - tau) * q k.
Lemma frac_is x d tau n q dq : vec_is x n q -> vec_is d n dq -> 0 <= tau -> (forall k, (k < n)%nat -> 0 <= q k) ->
  0 <= frac_to_bound x d tau <= 1 /\
  (forall a, 0 <= a <= 1 -> (stepok tau a n q dq <-> a <= frac_to_bound x d tau)).
Proof.
  intros Hx Hd Ht Hq. unfold frac_to_bound. rewrite (vis_len _ _ _ Hx).
  assert (G : forall m, (m <= n)%nat ->
    let r := fold_left (fun a i => if Rlt_dec (el d i) 0 then Rmin a (- tau / el d i * el x i) else a) (seq 0 m) 1 in
    0 <= r <= 1 /\ (forall a, 0 <= a <= 1 -> (stepok tau a m q dq <-> a <= r))).
  { induction m as [|m IH]; intros Hm; cbv zeta.
    - cbn. split; [lra|]. intros a Ha. split; [intros _; lra|intros _ k Hk; lia].
    - rewrite seq_S, fold_left_app. cbn [fold_left plus]. destruct (IH ltac:(lia)) as [I1 I2]. clear IH. cbv zeta in I1, I2.
      set (r := fold_left _ (seq 0 m) 1) in *.
      rewrite (vis_el _ _ _ _ Hx), (vis_el _ _ _ _ Hd) by lia. assert (Q : 0 <= q m) by (apply Hq; lia).
      destruct (Rlt_dec (dq m) 0) as [Neg|Nn].
      + assert (E : - tau / dq m * q m = tau * q m / (- dq m)) by (field; lra).
        assert (Pn : 0 <= tau * q m / - dq m) by (apply Rmult_le_pos; [nra|left; apply Rinv_0_lt_compat; lra]).
        assert (K : forall a, a <= tau * q m / - dq m <-> q m + a * dq m >= (1 - tau) * q m).
        { intros a. split; intros H.
          - assert (a * - dq m <= tau * q m).
            { replace (tau * q m) with (tau * q m / - dq m * - dq m) by (field; lra). apply Rmult_le_compat_r; lra. } nra.
          - apply (Rmult_le_reg_r (- dq m)); [lra|]. replace (tau * q m / - dq m * - dq m) with (tau * q m) by (field; lra). nra. }
        rewrite E. split.
        * unfold Rmin. destruct (Rle_dec r (tau * q m / - dq m)); lra.
        * intros a Ha. split; intros H.
          -- apply Rmin_glb; [apply I2; [exact Ha|]; intros k Hk; apply H; lia|apply K, H; lia].
          -- intros k Hk. destruct (Nat.eq_dec k m) as [->|]; [apply K; eapply Rle_trans; [exact H|apply Rmin_r]|].
             apply (proj2 (I2 a Ha)); [eapply Rle_trans; [exact H|apply Rmin_l]|lia].
      + split; [exact I1|]. intros a Ha. split; intros H.
        * apply I2; [exact Ha|]. intros k Hk. apply H. lia.
        * intros k Hk. destruct (Nat.eq_dec k m) as [->|]; [nra|]. apply (proj2 (I2 a Ha) H). lia. }
  apply (G n). lia.
Qed.
