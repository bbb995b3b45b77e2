(** Vectors as functions of the index: effect of the vector operations used by
    the matrix classes, in exact arithmetic. *)
From Coq Require Import List Bool Arith Reals Lia Lra.
From Flocq Require Import Core.
From Verif Require Import Num VecModel VecSpec VecProofs VecLift VecReal VecRed VecFresh ExpModel ExpSpec ExpProofs MatModel MatSpec.
Import ListNotations.
Local Open Scope R_scope.

Section MatVec.
Variable lg : R -> R.
Notation OR := (R_ops lg).
Variables (junk : nat -> list R) (jscal : R).
Hypothesis Hj : forall n, length (junk n) = n.

(** the elements of v are f 0, f 1, ... *)
Definition vrep (s : space) (f : nat -> R) (v : vec R) : Prop := vok s v /\ contents v = map f (seq 0 (sdim s)).
Notation tgt := (target OR).

Lemma nth_map_seq (f : nat -> R) n i : (i < n)%nat -> nth i (map f (seq 0 n)) 0 = f i.
Proof. intros H. rewrite (@nth_map' _ _ f i 0%nat) by (rewrite seq_length; auto). rewrite seq_nth; auto. Qed.
Lemma vrep_elem s f v i : vrep s f v -> (i < sdim s)%nat -> elem v i = f i.
Proof. intros [_ E] H. unfold elem. rewrite E. apply nth_map_seq; auto. Qed.
Lemma vrep_self s v : vok s v -> vrep s (elem v) v.
Proof.
  intros H. split; [exact H|]. pose proof (list_fun 0 (contents v)) as E. rewrite (vok_length _ _ H) in E. exact E.
Qed.
Lemma vrep_ext s f g v : (forall i, (i < sdim s)%nat -> f i = g i) -> vrep s f v -> vrep s g v.
Proof. intros H [A B]. split; [exact A|]. rewrite B. apply map_ext_in. intros i Hi. apply in_seq in Hi. apply H. lia. Qed.
Lemma vrep_fun s f v : vok s v -> (forall i, (i < sdim s)%nat -> elem v i = f i) -> vrep s f v.
Proof. intros H E. eapply vrep_ext; [exact E|]. apply vrep_self; auto. Qed.

Lemma map2_seq (g : R -> R -> R) (e f : nat -> R) n : map2 g (map e (seq 0 n)) (map f (seq 0 n)) = map (fun i => g (e i) (f i)) (seq 0 n).
Proof. generalize 0%nat. induction n; simpl; intros; auto. f_equal; auto. Qed.
Lemma map3_seq (g : R -> R -> R -> R) (e f h : nat -> R) n : map3 g (map e (seq 0 n)) (map f (seq 0 n)) (map h (seq 0 n)) = map (fun i => g (e i) (f i) (h i)) (seq 0 n).
Proof. generalize 0%nat. induction n; simpl; intros; auto. f_equal; auto. Qed.
Lemma repeat_seq (a : R) n : repeat a n = map (fun _ => a) (seq 0 n).
Proof. generalize 0%nat. induction n; simpl; intros; auto. f_equal; auto. Qed.

Lemma target_ind' (P : space -> vec R -> Prop) :
  (forall n d, (dok n d \/ exists j, d = d_new OR n j) -> P (SD n) (Dense n d)) ->
  (forall ls l, Forall2 tgt ls l -> Forall2 P ls l -> P (SC ls) (Comp l)) -> forall s v, tgt s v -> P s v.
Proof.
  intros HD HC s v. revert s. induction v as [n d|l IH] using vec_ind'; intros s H; inversion H as [? ? Hd|ls ? Hl]; subst; [apply HD; auto|].
  apply HC; [exact Hl|]. clear H. induction Hl; constructor; inversion IH; auto.
Qed.
Lemma tgt_ok s v : vok s v -> tgt s v.
Proof.
  revert s. induction v as [n d|l IH] using vec_ind'; intros s H; inversion H as [? ? Hd|ls ? Hl]; subst; constructor; auto.
  clear H. induction Hl; constructor; inversion IH; auto.
Qed.
Lemma tgt_makenew s v : tgt s v -> tgt s (v_makenew OR jscal v).
Proof.
  unfold v_makenew. intros H. revert s v H. apply target_ind'; intros; cbn [lift1]; constructor; eauto.
  clear H. induction H0; simpl; constructor; auto.
Qed.
Lemma tgt_new s : tgt s (v_new OR jscal s).
Proof.
  revert s. fix IH 1. intros [n|l]; cbn [v_new]; constructor; eauto. induction l; constructor; auto.
Qed.

Definition dtg (n : nat) (d : dvec R) : Prop := dok n d \/ exists j, d = d_new OR n j.
Lemma tgt1 f a : (forall n d, dtg n d -> dok n (f n d) /\ dden n (f n d) = repeat a n) ->
  forall s v, tgt s v -> vok s (lift1 f v) /\ contents (lift1 f v) = repeat a (sdim s).
Proof.
  intros Hf. apply target_ind'; [intros n d Hd|intros ls l Hl IH]; simpl.
  - destruct (Hf n d Hd). split; [constructor; auto|auto].
  - cut (Forall2 vok ls (map (lift1 f) l) /\ concat (map contents (map (lift1 f) l)) = repeat a (list_sum (map sdim ls))).
    { intros [K1 K2]. split; [constructor; exact K1|exact K2]. }
    clear Hl. induction IH as [|s v ls l [A B] Hl [C D]]; simpl; [repeat constructor|].
    split; [constructor; auto|]. rewrite B, D, repeat_app. reflexivity.
Qed.
Lemma tgt2 f g : (forall n x d, dok n x -> dtg n d -> dok n (f n x d) /\ dden n (f n x d) = map g (dden n x)) ->
  forall s v, tgt s v -> forall x, vok s x -> vok s (lift2 f x v) /\ contents (lift2 f x v) = map g (contents x).
Proof.
  intros Hf. apply (target_ind' (fun s v => forall x, vok s x -> vok s (lift2 f x v) /\ contents (lift2 f x v) = map g (contents x)));
    [intros n d Hd x Hx|intros ls l Hl IH x Hx]; simpl.
  - inversion Hx as [? dx Hdx|]; subst. destruct (Hf n dx d Hdx Hd). split; [constructor; auto|auto].
  - inversion Hx as [|? lx Hlx]; subst. clear Hx Hl.
    set (go := fix go l lx {struct l} := match l, lx with v :: l, x :: lx => lift2 f x v :: go l lx | _, _ => [] end).
    cut (Forall2 vok ls (go l lx) /\ concat (map contents (go l lx)) = map g (concat (map contents lx))).
    { intros [K1 K2]. split; [constructor; exact K1|exact K2]. }
    revert lx Hlx. induction IH as [|s v ls l Iv Hl IHl]; intros lx Hlx; inversion Hlx as [|? x ? lx' Hvx Hlx']; subst; simpl; [repeat constructor|].
    destruct (Iv _ Hvx) as [A B]. destruct (IHl _ Hlx') as [C D]. split; [constructor; auto|]. rewrite B, D, map_app. reflexivity.
Qed.
Lemma tgt3 f g : (forall n x z d, dok n x -> dok n z -> dtg n d -> dok n (f n x z d) /\ dden n (f n x z d) = map2 g (dden n x) (dden n z)) ->
  forall s v, tgt s v -> forall x z, vok s x -> vok s z -> vok s (lift3 f x z v) /\ contents (lift3 f x z v) = map2 g (contents x) (contents z).
Proof.
  intros Hf. apply (target_ind' (fun s v => forall x z, vok s x -> vok s z -> vok s (lift3 f x z v) /\ contents (lift3 f x z v) = map2 g (contents x) (contents z)));
    [intros n d Hd x z Hx Hz|intros ls l Hl IH x z Hx Hz]; simpl.
  - inversion Hx as [? dx Hdx|]; subst. inversion Hz as [? dz Hdz|]; subst. destruct (Hf n dx dz d Hdx Hdz Hd). split; [constructor; auto|auto].
  - inversion Hx as [|? lx Hlx]; subst. inversion Hz as [|? lz Hlz]; subst. clear Hx Hz Hl.
    set (go := fix go l lx lz {struct l} :=
               match l, lx, lz with v :: l, x :: lx, z :: lz => lift3 f x z v :: go l lx lz | _, _, _ => [] end).
    cut (Forall2 vok ls (go l lx lz) /\ concat (map contents (go l lx lz)) = map2 g (concat (map contents lx)) (concat (map contents lz))).
    { intros [K1 K2]. split; [constructor; exact K1|exact K2]. }
    revert lx lz Hlx Hlz. induction IH as [|s v ls l Iv Hl IHl]; intros lx lz Hlx Hlz;
      inversion Hlx as [|? x ? lx' Hvx Hlx']; inversion Hlz as [|? z ? lz' Hvz Hlz']; subst; simpl; [repeat constructor|].
    destruct (Iv _ _ Hvx Hvz) as [A B]. destruct (IHl _ _ Hlx' Hlz') as [C D]. split; [constructor; auto|]. rewrite B, D, map2_app; [reflexivity|].
    rewrite (vok_length _ _ Hvx), (vok_length _ _ Hvz); reflexivity.
Qed.

(** ** The operations *)
Lemma set_r a s v : tgt s v -> vrep s (fun _ => a) (v_set a v).
Proof.
  intros H. destruct (tgt1 (fun _ => d_set a) a) with (s := s) (v := v) as [A B]; auto.
  - intros n d _. split; [apply (set_rep n a d)|reflexivity].
  - split; [exact A|]. unfold v_set. rewrite B. apply repeat_seq.
Qed.
Lemma scal_r a s f v : vrep s f v -> vrep s (fun i => a * f i) (v_scal OR a v).
Proof.
  intros [A B]. destruct (lift1_ok _ (fun _ => d_scal OR a) _ (d1 OR _ (fun y => y * a) (fun n e d H => scal_rep OR (R_laws lg) n a e d H)) v s A (allT _)) as [C D].
  split; [exact C|]. unfold v_scal. rewrite D, B, map_map. apply map_ext. intros. cbn [R_ops tmul]. ring.
Qed.
Lemma abs_r s f v : vrep s f v -> vrep s (fun i => Rabs (f i)) (v_abs OR v).
Proof.
  intros [A B]. destruct (lift1_ok _ (d_abs OR) _ (d1 OR _ Rabs (fun n e d H => map_rep n (tabs OR) e d H)) v s A (allT _)) as [C D].
  split; [exact C|]. unfold v_abs. rewrite D, B, map_map. reflexivity.
Qed.
Lemma lift2_r f g s ex ev x v : dense2 (fun _ => True) f g -> vrep s ex x -> vrep s ev v -> vrep s (fun i => g (ev i) (ex i)) (lift2 f x v).
Proof.
  intros H [A B] [C D]. destruct (lift2_ok _ f g H v x s A C (allT _)) as [E F]. split; [exact E|]. rewrite F, B, D. apply map2_seq.
Qed.
Lemma lift3_r f g s ex ez ev x z v : dense3 (fun _ => True) f g -> vrep s ex x -> vrep s ez z -> vrep s ev v ->
  vrep s (fun i => g (ev i) (ex i) (ez i)) (lift3 f x z v).
Proof.
  intros H [A B] [A' B'] [C D]. destruct (lift3_ok _ f g H v x z s A A' C (allT _)) as [E F]. split; [exact E|]. rewrite F, B, B', D. apply map3_seq.
Qed.
Lemma mul_r s ex ev x v : vrep s ex x -> vrep s ev v -> vrep s (fun i => ev i * ex i) (v_mul OR x v).
Proof. apply (lift2_r (d_mul OR) Rmult). apply (d2 OR). intros. apply (mul_rep OR (R_laws lg)); auto. Qed.
Lemma div_r s ex ev x v : vrep s ex x -> vrep s ev v -> vrep s (fun i => ev i / ex i) (v_div OR x v).
Proof. apply (lift2_r (d_div OR) Rdiv). apply (d2 OR). intros. apply (div_rep OR); auto. Qed.
Lemma tmax_R a b : tmax OR a b = Rmax a b.
Proof. unfold tmax. cbn [R_ops tlt]. destruct (Rlt_bool_spec a b); [rewrite Rmax_right|rewrite Rmax_left]; lra. Qed.
Lemma emax_r s ex ev x v : vrep s ex x -> vrep s ev v -> vrep s (fun i => Rmax (ev i) (ex i)) (v_emax OR x v).
Proof.
  intros A B. eapply vrep_ext; [|apply (lift2_r (d_emax OR) (tmax OR) s ex ev x v); auto].
  - intros. apply tmax_R.
  - apply (d2 OR). intros. apply (emax_rep OR); auto.
Qed.
Lemma axpy_r a s ex ev x v : vrep s ex x -> vrep s ev v -> vrep s (fun i => ev i + a * ex i) (v_axpy OR a x v).
Proof. apply (lift2_r (fun n => d_axpy OR n a) (fun v x => v + a * x)). apply (d2 OR). intros. apply axpy_rep; auto. Qed.
Lemma copy_r s ex x v : vrep s ex x -> tgt s v -> vrep s ex (v_copy x v).
Proof.
  intros [A B] T. destruct (tgt2 (fun _ => d_copy) (fun q => q)) with (s := s) (v := v) (x := x) as [C D]; auto.
  - intros n y d Hy [Hd|[j ->]]; [|apply fresh_copy; auto].
    destruct (dok_rep OR _ _ Hd) as [e He]. destruct (dok_rep OR _ _ Hy) as [ey Hey]. destruct (copy_rep n ey e y d Hey He) as [K1 K2].
    split; [exact K1|]. rewrite map_id, K2. destruct Hey as [_ E]. symmetry; exact E.
  - split; [exact C|]. unfold v_copy. rewrite D, map_id. exact B.
Qed.
Lemma addone_r a c s ex ev x v : vrep s ex x -> tgt s v -> (c <> 0 -> vrep s ev v) -> vrep s (fun i => a * ex i + c * ev i) (v_addone OR junk a x c v).
Proof.
  intros A T H. unfold v_addone. destruct (Req_dec c 0) as [->|N].
  - destruct (tgt3 (fun n v1 v2 => d_addtwo OR n (junk n) a false v1 (t0 OR) false v2 0) (fun p q => a * p + 0 * q)) with (s := s) (v := v) (x := x) (z := x) as [C D]; auto; try apply A.
    + intros n y z d Hy Hz [Hd|[j ->]]; [|apply fresh_addtwo; auto].
      destruct (dok_rep OR _ _ Hd) as [e He]. destruct (dok_rep OR _ _ Hy) as [ey Hey]. destruct (dok_rep OR _ _ Hz) as [ez Hez].
      destruct (addtwo_rep lg n (junk n) a 0 0 ey ez e y z d ltac:(lra) (Hj n) Hey Hez He) as [K1 K2].
      cbn [R_ops t0]. split; [exact K1|]. rewrite K2. destruct Hey as [_ ->], Hez as [_ ->]. rewrite map2_seq. apply map_ext. intros; ring.
    + split; [exact C|]. rewrite D. destruct A as [_ ->]. rewrite map2_seq. apply map_ext. intros; ring.
  - eapply vrep_ext; [|apply (lift3_r (fun n v1 v2 => d_addtwo OR n (junk n) a false v1 (t0 OR) false v2 c) (fun v x z => a * x + 0 * z + c * v) s ex ex ev x x v); auto].
    + intros. cbn beta. ring.
    + apply (d3 OR). intros. apply addtwo_rep; auto. cbn [R_ops t0]. lra.
Qed.
Lemma addquot_r a c s ez es ev z x v : vrep s ez z -> vrep s es x -> tgt s v -> (c <> 0 -> vrep s ev v) ->
  vrep s (fun i => c * ev i + a * ez i / es i) (v_addquot OR junk a z x c v).
Proof.
  intros A B T H. unfold v_addquot. destruct (Req_dec c 0) as [->|N].
  - destruct (tgt3 (fun n z s => d_addquot OR n (junk n) a z s 0) (fun p q => a * p / q)) with (s := s) (v := v) (x := z) (z := x) as [C D]; auto; try apply A; try apply B.
    + intros n y w d Hy Hw [Hd|[j ->]]; [|apply (fresh_addquot OR (R_laws lg) junk a Hj (Req_bool_true 0 0 eq_refl)); auto].
      destruct (dok_rep OR _ _ Hd) as [e He]. destruct (dok_rep OR _ _ Hy) as [ey Hey]. destruct (dok_rep OR _ _ Hw) as [ew Hew].
      destruct (addquot_rep OR (R_laws lg) n (junk n) a ey ew 0 e y w d (Hj n) Hey Hew He) as [K1 K2].
      split; [exact K1|]. rewrite K2. destruct Hey as [_ ->], Hew as [_ ->]. rewrite map2_seq. apply map_ext. intros.
      cbn [R_ops teq t0 tdiv tmul tadd]. rewrite (Req_bool_true 0 0) by reflexivity. reflexivity.
    + split; [exact C|]. rewrite D. destruct A as [_ ->], B as [_ ->]. rewrite map2_seq. apply map_ext. intros; unfold Rdiv; ring.
  - eapply vrep_ext; [|apply (lift3_r (fun n z s => d_addquot OR n (junk n) a z s c) (fun v z x => c * v + a * z / x) s ez es ev z x v); auto].
    + intros. reflexivity.
    + apply (d3 OR). intros n ex ew e y w d Hy Hw Hd. pose proof (addquot_rep OR (R_laws lg) n (junk n) a ex ew c e y w d (Hj n) Hy Hw Hd) as K.
      cbn [R_ops teq t0 tdiv tmul tadd] in K. rewrite (Req_bool_false c 0) in K by auto. exact K.
Qed.
Lemma yscale_r b s f v : tgt s v -> (b <> 0 -> vrep s f v) -> vrep s (fun i => b * f i) (yscale OR b v).
Proof.
  intros T H. unfold yscale. cbn [R_ops teq t0]. destruct (Req_bool_spec b 0) as [->|N]; cbn [negb].
  - eapply vrep_ext; [|apply set_r; auto]. intros; cbn beta. ring.
  - apply scal_r; auto.
Qed.
Lemma vrep_ok s f v : vrep s f v -> vok s v. Proof. intros [A _]; exact A. Qed.
Lemma vrep_tgt s f v : vrep s f v -> tgt s v. Proof. intros [A _]; apply tgt_ok; exact A. Qed.

(** ** Components *)
Definition off (ls : list space) (k : nat) : nat := list_sum (map sdim (firstn k ls)).
Lemma off_S ls k : (k < length ls)%nat -> off ls (S k) = (off ls k + sdim (nth k ls sp0))%nat.
Proof.
  unfold off. revert k; induction ls as [|a ls IH]; intros [|k] H; simpl in *; try lia. specialize (IH k). simpl in IH. rewrite IH by lia. lia.
Qed.
Lemma off_all ls : off ls (length ls) = sdim (SC ls).
Proof. unfold off. rewrite firstn_all. reflexivity. Qed.
Lemma off_le ls k : (k < length ls)%nat -> (off ls k + sdim (nth k ls sp0) <= sdim (SC ls))%nat.
Proof.
  unfold off. simpl. revert k; induction ls as [|a ls IH]; intros [|k] H; simpl in *; try lia. specialize (IH k ltac:(lia)). lia.
Qed.
Definition dflt : vec R := Comp [].
Lemma vrep_comp ls f l : vrep (SC ls) f (Comp l) <->
  length l = length ls /\ forall k, (k < length ls)%nat -> vrep (nth k ls sp0) (fun i => f (off ls k + i)%nat) (nth k l dflt).
Proof.
  unfold vrep at 1. revert f l; induction ls as [|s ls IH]; intros f l.
  - split.
    + intros [A _]. inversion A as [|? ? H]; subst. inversion H; subst. simpl. split; [auto|intros; lia].
    + intros [E _]. destruct l; [|discriminate]. split; [repeat constructor|reflexivity].
  - destruct l as [|v l].
    { split; [intros [A _]; inversion A as [|? ? H]; subst; inversion H|intros [E _]; discriminate]. }
    specialize (IH (fun i => f (sdim s + i)%nat) l).
    assert (SPLIT : contents (Comp (v :: l)) = map f (seq 0 (sdim (SC (s :: ls)))) /\ vok s v <->
                    vrep s f v /\ contents (Comp l) = map (fun i => f (sdim s + i)%nat) (seq 0 (sdim (SC ls)))).
    { simpl. rewrite seq_app, map_app. simpl.
      assert (E2 : map f (seq (sdim s) (list_sum (map sdim ls))) = map (fun i => f (sdim s + i)%nat) (seq 0 (list_sum (map sdim ls)))).
      { rewrite <- (map_map (fun i => (sdim s + i)%nat) f). f_equal. rewrite <- (Nat.add_0_r (sdim s)) at 1. generalize 0%nat. induction (list_sum (map sdim ls)); simpl; intros; auto.
        f_equal. rewrite <- IHn. f_equal. lia. }
      rewrite E2. split.
      - intros [E V]. pose proof (vok_length _ _ V) as L. unfold vrep.
        assert (K : contents v = map f (seq 0 (sdim s)) /\ concat (map contents l) = map (fun i => f (sdim s + i)%nat) (seq 0 (list_sum (map sdim ls)))).
        {           assert (LL : length (contents v) = length (map f (seq 0 (sdim s)))) by (rewrite map_length, seq_length; auto).
          revert E LL. generalize (contents v) (map f (seq 0 (sdim s))). induction l0 as [|a l0 IHl]; intros [|b m] E LL; try discriminate; simpl in *; auto.
          injection E as -> E. destruct (IHl m E ltac:(lia)) as [-> K]. auto. }
        destruct K; auto.
      - intros [[V E] E']. split; auto. rewrite E, E'. reflexivity. }
    split.
    + intros [A B]. inversion A as [|? ? H]; subst. inversion H as [|? ? ? ? Hv Hl]; subst.
      destruct (proj1 SPLIT (conj B Hv)) as [V1 V2]. destruct (proj1 IH (conj (vok_comp _ _ Hl) V2)) as [L1 L2].
      split; [simpl; lia|]. intros [|k] Hk.
      * unfold off; simpl. exact V1.
      * simpl in Hk. specialize (L2 k ltac:(lia)). cbn [nth]. eapply vrep_ext; [|exact L2]. intros i _. unfold off. simpl. f_equal. lia.
    + intros [L1 L2]. simpl in L1. pose proof (L2 0%nat ltac:(simpl; lia)) as V1. unfold off in V1; simpl in V1.
      assert (K : vok (SC ls) (Comp l) /\ contents (Comp l) = map (fun i => f (sdim s + i)%nat) (seq 0 (sdim (SC ls)))).
      { apply IH. split; [lia|]. intros k Hk. specialize (L2 (S k) ltac:(simpl; lia)). cbn [nth] in L2. eapply vrep_ext; [|exact L2].
        intros i _. unfold off. simpl. f_equal. lia. }
      destruct K as [K1 K2]. inversion K1; subst. split; [constructor; constructor; auto; apply V1|].
      apply (proj2 SPLIT). split; auto.
Qed.
Lemma tgt_comp ls v : tgt (SC ls) v <-> exists l, v = Comp l /\ length l = length ls /\ forall k, (k < length ls)%nat -> tgt (nth k ls sp0) (nth k l dflt).
Proof.
  split.
  - intros H. inversion H as [|? l Hl]; subst. exists l. split; auto. clear H. induction Hl as [|s v ls l A B [I1 I2]]; simpl; [split; auto; intros; lia|].
    split; [lia|]. intros [|k] Hk; auto. apply I2; lia.
  - intros (l & -> & L & H). constructor. revert l L H. induction ls as [|s ls IH]; intros [|v l] L H; try discriminate; constructor.
    + apply (H 0%nat). simpl; lia.
    + apply IH; [simpl in L; lia|]. intros k Hk. apply (H (S k)). simpl; lia.
Qed.

(** sums over the index ranges of the components *)
Lemma sum_to_add n m f : sum_to (n + m) f = sum_to n f + sum_to m (fun i => f (n + i)%nat).
Proof. induction m; simpl; [rewrite Nat.add_0_r; ring|]. rewrite Nat.add_succ_r. simpl. rewrite IHm. ring. Qed.
Lemma sum_blocks ls f : sum_to (sdim (SC ls)) f = sum_to (length ls) (fun k => sum_to (sdim (nth k ls sp0)) (fun i => f (off ls k + i)%nat)).
Proof.
  rewrite <- off_all. assert (H : forall k, (k <= length ls)%nat -> sum_to (off ls k) f = sum_to k (fun k => sum_to (sdim (nth k ls sp0)) (fun i => f (off ls k + i)%nat))).
  { induction k; intros Hk; [reflexivity|]. rewrite off_S by lia. rewrite sum_to_add, IHk by lia. reflexivity. }
  apply H. lia.
Qed.
Lemma locate_off ls k i : (k < length ls)%nat -> (i < sdim (nth k ls sp0))%nat -> locate (map sdim ls) (off ls k + i) = (k, i).
Proof.
  unfold off. revert k; induction ls as [|s ls IH]; intros [|k] Hk Hi; simpl in *; try lia.
  - apply Nat.ltb_lt in Hi. rewrite Hi. reflexivity.
  - destruct (Nat.ltb_spec (sdim s + list_sum (map sdim (firstn k ls)) + i) (sdim s)); try lia.
    replace (sdim s + list_sum (map sdim (firstn k ls)) + i - sdim s)%nat with (list_sum (map sdim (firstn k ls)) + i)%nat by lia.
    rewrite IH by (auto; lia). reflexivity.
Qed.
Lemma locate_inv ls i : (i < sdim (SC ls))%nat -> exists k r, (k < length ls)%nat /\ (r < sdim (nth k ls sp0))%nat /\ i = (off ls k + r)%nat.
Proof.
  unfold off. simpl. revert i. induction ls as [|s ls IH]; simpl; intros i Hi; try lia.
  destruct (Nat.lt_ge_cases i (sdim s)).
  - exists 0%nat, i. simpl. repeat split; auto; lia.
  - destruct (IH (i - sdim s)%nat ltac:(lia)) as (k & r & A & B & C). exists (S k), r. simpl. repeat split; auto; lia.
Qed.

(** dot product *)
Lemma rsum_seq f n : rsum (map f (seq 0 n)) = sum_to n f.
Proof.
  assert (K : forall l m, rsum (l ++ m) = rsum l + rsum m) by (induction l; simpl; intros; [ring|rewrite IHl; ring]).
  induction n; [reflexivity|]. rewrite seq_S, map_app, K, IHn. simpl. ring.
Qed.
Lemma dot_r s ex ev x v : vrep s ex x -> vrep s ev v -> v_dot OR x v = sum_to (sdim s) (fun i => ex i * ev i).
Proof.
  intros [A B] [C D]. rewrite (v_dot_eq lg s v x A C). unfold rdot. rewrite B, D, map2_seq. apply rsum_seq.
Qed.
End MatVec.
