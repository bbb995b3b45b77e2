(** Reductions: dot products, norms, sums, extrema and the fraction-to-the-boundary rule. *)
From Coq Require Import List Bool Arith ZArith Reals Lia Lra.
From Flocq Require Import Core BinarySingleNaN.
From Verif Require Import Num VecModel VecSpec VecProofs VecLift VecReal.
Import ListNotations.
Local Open Scope nat_scope.

(** ** Results that do not depend on the storage even with rounding *)
Section Exact.
Context {T : Type} (O : nops T) (L : laws O).

Lemma dden_cases n (d : dvec T) : (hom d = true /\ dden n d = repeat (scal d) n) \/ (hom d = false /\ dden n d = vlist d).
Proof. unfold dden. destruct (hom d); auto. Qed.

Lemma amax_repeat n a : blas_amax O (repeat a (S n)) = tabs O a.
Proof. simpl. induction n; simpl; auto. rewrite (l_irr O L). exact IHn. Qed.
Lemma fmax_repeat n a : fold_max O (repeat a (S n)) = a.
Proof. simpl. induction n; simpl; auto. unfold tmax at 2. rewrite (l_irr O L). exact IHn. Qed.
Lemma fmin_repeat n a : fold_min O (repeat a (S n)) = a.
Proof. simpl. induction n; simpl; auto. unfold tmin at 2. rewrite (l_irr O L). exact IHn. Qed.

Definition amax_of (l : list T) : T := match l with [] => t0 O | _ => blas_amax O l end.
Definition max_of (l : list T) : T := match l with [] => topp O (thuge O) | _ => fold_max O l end.
Definition min_of (l : list T) : T := match l with [] => thuge O | _ => fold_min O l end.

Ltac rdc n d H := destruct n as [|n]; [pose proof (dden_length 0 d H) as E; destruct (dden 0 d); [reflexivity|discriminate E]|];
  cbn [Nat.eqb]; destruct (dden_cases (S n) d) as [[E1 E2]|[E1 E2]]; rewrite E1, E2.
Lemma d_amax_of n d : dok n d -> d_amax O n d = amax_of (dden n d).
Proof.
  intros H. unfold d_amax. rdc n d H.
  - change (tabs O (scal d) = blas_amax O (repeat (scal d) (S n))). rewrite amax_repeat. reflexivity.
  - pose proof (dden_length _ _ H) as E. rewrite E2 in E. destruct (vlist d); [discriminate E|reflexivity].
Qed.
Lemma d_max_of n d : dok n d -> d_max O n d = max_of (dden n d).
Proof.
  intros H. unfold d_max. rdc n d H.
  - change (scal d = fold_max O (repeat (scal d) (S n))). rewrite fmax_repeat. reflexivity.
  - pose proof (dden_length _ _ H) as E. rewrite E2 in E. destruct (vlist d); [discriminate E|reflexivity].
Qed.
Lemma d_min_of n d : dok n d -> d_min O n d = min_of (dden n d).
Proof.
  intros H. unfold d_min. rdc n d H.
  - change (scal d = fold_min O (repeat (scal d) (S n))). rewrite fmin_repeat. reflexivity.
  - pose proof (dden_length _ _ H) as E. rewrite E2 in E. destruct (vlist d); [discriminate E|reflexivity].
Qed.

(** fraction to the boundary as one fold over the positions *)
Definition frac_step (tau alpha : T) (dx : T * T) : T :=
  if tlt O (fst dx) (t0 O) then frac1 O tau alpha (fst dx) (snd dx) else alpha.
Definition frac_of (tau : T) (d x : list T) : T := fold_left (frac_step tau) (combine d x) (t1 O).

Lemma min_idem a q : tmin O (tmin O a q) q = tmin O a q.
Proof.
  unfold tmin at 1 3. unfold tmin. destruct (tlt O q a) eqn:E; [rewrite (l_irr O L)|rewrite E]; reflexivity.
Qed.
Lemma frac_repeat tau n d x : fold_left (frac_step tau) (combine (repeat d (S n)) (repeat x (S n))) (t1 O) =
  frac_step tau (t1 O) (d, x).
Proof.
  simpl. induction n; simpl; auto. rewrite <- IHn at 2. f_equal.
  unfold frac_step; simpl. destruct (tlt O d (t0 O)); [|reflexivity]. unfold frac1. apply min_idem.
Qed.
Lemma combine_repeat_l {A B} (a : A) (m : list B) : combine (repeat a (length m)) m = map (fun y => (a, y)) m.
Proof. induction m; simpl; congruence. Qed.
Lemma combine_repeat_r {A B} (l : list A) (b : B) : combine l (repeat b (length l)) = map (fun y => (y, b)) l.
Proof. induction l; simpl; congruence. Qed.
Lemma fold_left_map {A B C} (f : A -> B -> A) (g : C -> B) l a : fold_left f (map g l) a = fold_left (fun a c => f a (g c)) l a.
Proof. revert a; induction l; simpl; auto. Qed.

Lemma d_frac_of n tau d x : dok n d -> dok n x -> d_frac O n tau d x = frac_of tau (dden n d) (dden n x).
Proof.
  intros Hd Hx. unfold d_frac, frac_of. destruct n as [|n].
  { cbn [Nat.eqb]. pose proof (dden_length 0 d Hd) as E. destruct (dden 0 d); [reflexivity|discriminate E]. }
  cbn [Nat.eqb]. pose proof (dden_length _ _ Hd) as Ld. pose proof (dden_length _ _ Hx) as Lx.
  destruct (dden_cases (S n) d) as [[E1 E2]|[E1 E2]]; destruct (dden_cases (S n) x) as [[F1 F2]|[F1 F2]];
    rewrite E1, F1; rewrite E2, F2 in *.
  - rewrite frac_repeat. unfold frac_step. simpl. reflexivity.
  - rewrite <- Lx, combine_repeat_l, fold_left_map. unfold frac_step. simpl.
    destruct (tlt O (scal d) (t0 O)); [reflexivity|].
    clear. generalize (t1 O). induction (vlist x); simpl; auto.
  - rewrite <- Ld, combine_repeat_r, fold_left_map. unfold frac_step. simpl. reflexivity.
  - reflexivity.
Qed.

(** ** Trees *)
Lemma exact_tree (F : vec T -> T) (Fd : nat -> dvec T -> T) (comb : list (nat * T) -> T) :
  (forall n d, F (Dense n d) = Fd n d) -> (forall l, F (Comp l) = comb (map (fun c => (dim c, F c)) l)) ->
  (forall n d d', dok n d -> dok n d' -> dden n d = dden n d' -> Fd n d = Fd n d') ->
  forall v v' s, vok s v -> vok s v' -> contents v = contents v' -> F v = F v'.
Proof.
  intros HD HC HF v. induction v as [n d|l IH] using vec_ind'; intros v' s Hv Hv' E.
  - inversion Hv as [? ? Hd|]; subst. inversion Hv' as [? ? Hd'|]; subst. rewrite !HD. apply HF; auto.
  - inversion Hv as [|ls ? Hl]; subst. inversion Hv' as [|? l' Hl']; subst. rewrite !HC. f_equal.
    clear HC Hv Hv'. simpl in E. revert l' Hl' E. induction Hl as [|s v ls l Hv Hl IHl]; intros l' Hl' E;
      inversion Hl' as [|? v' ? l'' Hv' Hl'']; subst; simpl in *; [reflexivity|].
    apply Forall_cons_iff in IH. destruct IH as [Iv Il].
    assert (Ln : length (contents v) = length (contents v')) by (rewrite (vok_length _ _ Hv), (vok_length _ _ Hv'); reflexivity).
    assert (E1 : contents v = contents v' /\ concat (map contents l) = concat (map contents l'')).
    { clear -E Ln. revert Ln E. generalize (contents v), (contents v'). induction l0; intros [|] Ln E; simpl in *; try lia; auto.
      injection E as -> E. destruct (IHl0 l1) as [-> H]; auto. }
    destruct E1 as [E1 E2]. f_equal; [|apply IHl; auto].
    rewrite (vok_dim _ _ Hv), (vok_dim _ _ Hv'). f_equal. apply (Iv v' s); auto.
Qed.
Lemma map_pair_fst {A B C} (f : A -> B) (g : A -> C) l : map g l = map snd (map (fun c => (f c, g c)) l).
Proof. rewrite map_map. reflexivity. Qed.

Lemma amax_same s v v' : vok s v -> vok s v' -> contents v = contents v' -> v_amax O v = v_amax O v'.
Proof.
  intros. eapply (exact_tree (v_amax O) (d_amax O) (fun l => fold_left (tmax O) (map snd l) (t0 O))); eauto.
  - intros l. simpl. rewrite (map_pair_fst dim (v_amax O)). reflexivity.
  - intros n d d' Hd Hd' E. rewrite !d_amax_of, E by auto. reflexivity.
Qed.
Lemma max_same s v v' : vok s v -> vok s v' -> contents v = contents v' -> v_max O v = v_max O v'.
Proof.
  intros. eapply (exact_tree (v_max O) (d_max O) (fun l => fold_left (fun m p => if negb (fst p =? 0) then tmax O m (snd p) else m) l (topp O (thuge O)))); eauto.
  - intros n d d' Hd Hd' E. rewrite !d_max_of, E by auto. reflexivity.
Qed.
Lemma min_same s v v' : vok s v -> vok s v' -> contents v = contents v' -> v_min O v = v_min O v'.
Proof.
  intros. eapply (exact_tree (v_min O) (d_min O) (fun l => fold_left (fun m p => if negb (fst p =? 0) then tmin O m (snd p) else m) l (thuge O))); eauto.
  - intros n d d' Hd Hd' E. rewrite !d_min_of, E by auto. reflexivity.
Qed.

(** ** Characterisation of the fraction-to-the-boundary result *)
Record order (ok : T -> Prop) : Prop := {
  o_1 : ok (t1 O);
  o_cmp : forall x y, tlt O x y = true -> ok x /\ ok y;
  o_trans : forall x y z, tlt O x y = true -> tlt O y z = true -> tlt O x z = true;
  o_weak : forall x y z, ok y -> tlt O x z = true -> tlt O y z = false -> tlt O x y = true
}.
Context (ok : T -> Prop) (Ord : order ok).

Definition ratio (tau : T) (dx : T * T) : T := tmul O (tdiv O (topp O tau) (fst dx)) (snd dx).
(** a is 1 or one of the ratios of a component that decreases, and no ratio is smaller *)
Definition frac_char (tau : T) (l : list (T * T)) (a : T) : Prop :=
  ok a /\ (a = t1 O \/ exists p, In p l /\ tlt O (fst p) (t0 O) = true /\ a = ratio tau p) /\
  tlt O (t1 O) a = false /\
  forall p, In p l -> tlt O (fst p) (t0 O) = true -> tlt O (ratio tau p) a = false.

Lemma frac_char_nil tau : frac_char tau [] (t1 O).
Proof. split; [apply (o_1 ok Ord)|]. split; [auto|]. split; [apply (l_irr O L)|]. intros p []. Qed.
Lemma frac_char_step tau l p a : frac_char tau l a -> frac_char tau (l ++ [p]) (frac_step tau a p).
Proof.
  intros (Ho & Ha & H1 & Hl). unfold frac_step, frac1. fold (ratio tau p).
  destruct (tlt O (fst p) (t0 O)) eqn:Ep.
  - unfold tmin. destruct (tlt O (ratio tau p) a) eqn:Er.
    + split; [apply (o_cmp ok Ord _ _ Er)|]. split; [right; exists p; split; [apply in_or_app; right; left; reflexivity|auto]|].
      split.
      * destruct (tlt O (t1 O) (ratio tau p)) eqn:E; [|reflexivity]. rewrite (o_trans ok Ord _ _ _ E Er) in H1. discriminate H1.
      * intros q Hq Eq. apply in_app_iff in Hq. destruct Hq as [Hq|[<-|[]]]; [|apply (l_irr O L)].
        destruct (tlt O (ratio tau q) (ratio tau p)) eqn:E; [|reflexivity].
        pose proof (o_trans ok Ord _ _ _ E Er) as K. rewrite (Hl _ Hq Eq) in K. discriminate K.
    + split; [exact Ho|]. split; [destruct Ha as [Ha|(q & Hq & Ha)]; [left; exact Ha|right; exists q; split; [apply in_or_app; left; exact Hq|exact Ha]]|].
      split; [exact H1|]. intros q Hq Eq. apply in_app_iff in Hq. destruct Hq as [Hq|[<-|[]]]; [auto|exact Er].
  - split; [exact Ho|]. split; [destruct Ha as [Ha|(q & Hq & Ha)]; [left; exact Ha|right; exists q; split; [apply in_or_app; left; exact Hq|exact Ha]]|].
    split; [exact H1|]. intros q Hq Eq. apply in_app_iff in Hq. destruct Hq as [Hq|[<-|[]]]; [auto|congruence].
Qed.
Lemma frac_char_app tau l m a b : frac_char tau l a -> frac_char tau m b -> frac_char tau (l ++ m) (tmin O a b).
Proof.
  intros (Ao & Ha & A1 & Al) (Bo & Hb & B1 & Bl). unfold tmin. destruct (tlt O b a) eqn:E.
  - split; [exact Bo|]. split; [destruct Hb as [Hb|(q & Hq & Hb)]; [left; exact Hb|right; exists q; split; [apply in_or_app; right; exact Hq|exact Hb]]|].
    split; [exact B1|]. intros q Hq Eq. apply in_app_iff in Hq. destruct Hq as [Hq|Hq]; [|auto].
    destruct (tlt O (ratio tau q) b) eqn:Eb; [|reflexivity]. pose proof (o_trans ok Ord _ _ _ Eb E) as K. rewrite (Al _ Hq Eq) in K. discriminate K.
  - split; [exact Ao|]. split; [destruct Ha as [Ha|(q & Hq & Ha)]; [left; exact Ha|right; exists q; split; [apply in_or_app; left; exact Hq|exact Ha]]|].
    split; [exact A1|]. intros q Hq Eq. apply in_app_iff in Hq. destruct Hq as [Hq|Hq]; [auto|].
    destruct (tlt O (ratio tau q) a) eqn:Eb; [|reflexivity]. pose proof (o_weak ok Ord _ b _ Bo Eb E) as K. rewrite (Bl _ Hq Eq) in K. discriminate K.
Qed.
Lemma combine_app {A B} (l1 l2 : list A) (m1 m2 : list B) : length l1 = length m1 ->
  combine (l1 ++ l2) (m1 ++ m2) = combine l1 m1 ++ combine l2 m2.
Proof. revert m1; induction l1; intros [|] E; simpl in *; try lia; [reflexivity|]. f_equal. apply IHl1; lia. Qed.

Lemma frac_of_char tau d x : frac_char tau (combine d x) (frac_of tau d x).
Proof.
  unfold frac_of. generalize (combine d x). clear d x. intros l.
  assert (H : forall l k a, frac_char tau k a -> frac_char tau (k ++ l) (fold_left (frac_step tau) l a)).
  { induction l0; intros k b Hb; simpl; [rewrite app_nil_r; exact Hb|].
    replace (k ++ a :: l0) with ((k ++ [a]) ++ l0) by (rewrite <- app_assoc; reflexivity).
    apply IHl0. apply frac_char_step, Hb. }
  apply (H l [] (t1 O)), frac_char_nil.
Qed.

Lemma v_frac_char tau s : forall x d, vok s d -> vok s x -> frac_char tau (combine (contents d) (contents x)) (v_frac O tau d x).
Proof.
  intros x. revert s. induction x as [n dx|l IH] using vec_ind'; intros s d Hd Hx.
  - inversion Hx as [? ? Kx|]; subst. inversion Hd as [? dd Kd|]; subst. simpl. rewrite d_frac_of by auto. apply frac_of_char.
  - inversion Hx as [|ls ? Kx]; subst. inversion Hd as [|? ld Kd]; subst. clear Hx Hd.
    cbn [v_frac contents].
    set (go := fix go alpha l ld {struct l} := match l, ld with x :: l, d :: ld => go (tmin O alpha (v_frac O tau d x)) l ld | _, _ => alpha end).
    assert (H : forall k a, frac_char tau k a -> frac_char tau (k ++ combine (concat (map contents ld)) (concat (map contents l))) (go a l ld)).
    { revert ld Kd. induction Kx as [|s x ls l Hx Hl IHl]; intros ld Kd k a Ha; inversion Kd as [|? d ? ld' Hd Hld]; subst.
      - simpl. rewrite app_nil_r. exact Ha.
      - apply Forall_cons_iff in IH. destruct IH as [Ix Il].
        cbn [map concat go]. rewrite combine_app by (rewrite (vok_length _ _ Hx), (vok_length _ _ Hd); reflexivity).
        rewrite app_assoc. apply IHl; auto. apply frac_char_app; [exact Ha|]. eapply Ix; eauto. }
    apply (H [] (t1 O)), frac_char_nil.
Qed.
End Exact.

(** instances of the order laws *)
Lemma R_order lg : order (R_ops lg) (fun _ => True).
Proof.
  split; simpl; auto; intros *; unfold Rlt_bool.
  - destruct (Rcompare_spec x y), (Rcompare_spec y z), (Rcompare_spec x z); intros; try discriminate; auto; lra.
  - destruct (Rcompare_spec x z), (Rcompare_spec y z), (Rcompare_spec x y); intros; try discriminate; auto; lra.
Qed.
Lemma num_order lg : order (num_ops lg) (fun x => nnan x = false).
Proof.
  split; cbn [num_ops t1 tlt].
  - apply nfin_nnan, none_fin.
  - intros x y H. apply nlt_iff in H. tauto.
  - intros x y z H1 H2. apply nlt_iff in H1, H2. apply nlt_iff. destruct H1 as (? & ? & ?), H2 as (? & ? & ?). repeat split; auto. lra.
  - intros x y z Hy H1 H2. apply nlt_iff in H1. apply nlt_iff. destruct H1 as (? & ? & ?).
    apply nlt_false in H2; auto. repeat split; auto. lra.
Qed.

Lemma frac_same {T} (O : nops T) (L : laws O) tau s : forall x x' d d', vok s d -> vok s x -> vok s d' -> vok s x' ->
  contents d = contents d' -> contents x = contents x' -> v_frac O tau d x = v_frac O tau d' x'.
Proof.
  intros x. revert s. induction x as [n dx|l IH] using vec_ind'; intros s x' d d' Hd Hx Hd' Hx' Ed Ex.
  - inversion Hx as [? ? Kx|]; subst. inversion Hd as [? dd Kd|]; subst. inversion Hx' as [? ? Kx'|]; subst. inversion Hd' as [? ? Kd'|]; subst.
    simpl in *. rewrite !(d_frac_of O L) by auto. congruence.
  - inversion Hx as [|ls ? Kx]; subst. inversion Hd as [|? ld Kd]; subst. inversion Hx' as [|? lx' Kx']; subst. inversion Hd' as [|? ld' Kd']; subst.
    clear Hx Hd Hx' Hd'. cbn [v_frac contents] in *.
    set (go := fix go alpha l ld {struct l} := match l, ld with x :: l, d :: ld => go (tmin O alpha (v_frac O tau d x)) l ld | _, _ => alpha end).
    generalize (t1 O).
    assert (Hsplit : forall (a b a' b' : list T), length a = length a' -> a ++ b = a' ++ b' -> a = a' /\ b = b').
    { induction a; intros b [|] b' Ln E; simpl in *; try lia; auto. injection E as -> E. destruct (IHa b l0 b') as [-> H]; auto. }
    revert lx' ld ld' Kd Kx' Kd' Ed Ex. induction Kx as [|s x ls l Hx Hl IHl]; intros lx' ld ld' Kd Kx' Kd' Ed Ex t;
      inversion Kd as [|? d ? ldd Hd Hld]; inversion Kx' as [|? x' ? lxx Hx' Hlx']; inversion Kd' as [|? d' ? ldd' Hd' Hld']; subst; [reflexivity|].
    apply Forall_cons_iff in IH. destruct IH as [Ix Il]. cbn [map concat go] in *.
    apply Hsplit in Ed; [|rewrite (vok_length _ _ Hd), (vok_length _ _ Hd'); reflexivity].
    apply Hsplit in Ex; [|rewrite (vok_length _ _ Hx), (vok_length _ _ Hx'); reflexivity].
    destruct Ed as [Ed Ed'], Ex as [Ex Ex'].
    rewrite (Ix s x' d d') by auto. apply IHl; auto.
Qed.

(** ** Exact arithmetic *)
Local Open Scope R_scope.
Section Reals.
Variable lg : R -> R.
Notation OR := (R_ops lg).
Ltac ops := cbn [R_ops t0 t1 tm1 tadd tsub tmul tdiv topp tabs tsqrt tlog tlt teq tnat thuge] in *.

Lemma sum_rsum l a : fold_left Rplus l a = a + rsum l.
Proof. revert a; induction l; intros b; simpl; [ring|]. rewrite IHl. ring. Qed.
Lemma sum_eq l : sum OR l = rsum l.
Proof. unfold sum. ops. rewrite sum_rsum. ring. Qed.
Lemma rsum_app l m : rsum (l ++ m) = rsum l + rsum m.
Proof. induction l; simpl; [ring|]. rewrite IHl. ring. Qed.
Lemma rsum_repeat a n : rsum (repeat a n) = INR n * a.
Proof. induction n; [simpl; ring|]. cbn [repeat rsum]. rewrite IHn, S_INR. ring. Qed.
Lemma map_repeat {A B} (f : A -> B) a n : map f (repeat a n) = repeat (f a) n.
Proof. induction n; simpl; congruence. Qed.
Lemma map2_repeat_l {A B C} (f : A -> B -> C) a m : map2 f (repeat a (length m)) m = map (f a) m.
Proof. induction m; simpl; congruence. Qed.
Lemma map2_repeat_r {A B C} (f : A -> B -> C) l b : map2 f l (repeat b (length l)) = map (fun a => f a b) l.
Proof. induction l; simpl; congruence. Qed.
Lemma map2_repeat {A B C} (f : A -> B -> C) a b n : map2 f (repeat a n) (repeat b n) = repeat (f a b) n.
Proof. induction n; simpl; congruence. Qed.

Definition rdot (x v : list R) : R := rsum (map2 Rmult x v).

Lemma d_dot_eq n x v : dok n x -> dok n v -> d_dot OR n x v = rdot (dden n x) (dden n v).
Proof.
  intros Hx Hv. unfold d_dot, rdot. pose proof (dden_length _ _ Hx) as Lx. pose proof (dden_length _ _ Hv) as Lv.
  destruct n as [|n]; cbn [Nat.eqb].
  { destruct (dden 0 x); [reflexivity|discriminate Lx]. }
  destruct (dden_cases (S n) x) as [[E1 E2]|[E1 E2]], (dden_cases (S n) v) as [[F1 F2]|[F1 F2]];
    rewrite E1, F1; rewrite E2, F2 in *; rewrite ?sum_eq; ops.
  - rewrite map2_repeat, rsum_repeat. ring.
  - rewrite <- Lv, map2_repeat_l. reflexivity.
  - rewrite <- Lx, map2_repeat_r. reflexivity.
  - reflexivity.
Qed.
Lemma v_dot_eq s : forall v x, vok s x -> vok s v -> v_dot OR x v = rdot (contents x) (contents v).
Proof.
  intros v. revert s. induction v as [n d|l IH] using vec_ind'; intros s x Hx Hv.
  - inversion Hv as [? ? Kv|]; subst. inversion Hx as [? dx Kx|]; subst. apply d_dot_eq; auto.
  - inversion Hv as [|ls ? Kv]; subst. inversion Hx as [|? lx Kx]; subst. clear Hv Hx. cbn [v_dot contents]. ops.
    set (go := fix go acc l lx {struct l} := match l, lx with v :: l, x :: lx => go (acc + v_dot OR x v) l lx | _, _ => acc end).
    replace (rdot (concat (map contents lx)) (concat (map contents l))) with (0 + rdot (concat (map contents lx)) (concat (map contents l))) by ring.
    generalize 0. revert lx Kx. induction Kv as [|s v ls l Hv Hl IHl]; intros lx Kx t; inversion Kx as [|? x ? lxx Hx Hlx]; subst.
    + simpl. unfold rdot. simpl. ring.
    + apply Forall_cons_iff in IH. destruct IH as [Iv Il]. cbn [go map concat]. rewrite IHl by auto. rewrite (Iv s) by auto.
      unfold rdot. rewrite map2_app by (rewrite (vok_length _ _ Hv), (vok_length _ _ Hx); reflexivity).
      rewrite rsum_app. ring.
Qed.

(** sums over the components *)
Lemma tree_sum (F : vec R -> R) (f : R -> R) :
  (forall n d, dok n d -> F (Dense n d) = rsum (map f (dden n d))) ->
  (forall l, F (Comp l) = fold_left Rplus (map F l) 0) ->
  forall v s, vok s v -> F v = rsum (map f (contents v)).
Proof.
  intros HD HC v. induction v as [n d|l IH] using vec_ind'; intros s H; inversion H as [? ? Hd|ls ? Hl]; subst.
  - apply HD; auto.
  - rewrite HC. cbn [contents]. rewrite sum_rsum, Rplus_0_l. clear H HC. induction Hl as [|s v ls l Hv Hl IHl]; simpl; [reflexivity|].
    apply Forall_cons_iff in IH. destruct IH as [Iv Il]. rewrite map_app, rsum_app, (Iv s), IHl by auto. reflexivity.
Qed.
Lemma v_asum_eq s v : vok s v -> v_asum OR v = rsum (map Rabs (contents v)).
Proof.
  apply tree_sum; [|reflexivity]. intros n d Hd. cbn [v_asum]. unfold d_asum.
  destruct (dden_cases n d) as [[E1 E2]|[E1 E2]]; rewrite E1, E2; rewrite ?sum_eq; ops; [rewrite map_repeat, rsum_repeat|]; reflexivity.
Qed.
Lemma v_sum_eq s v : vok s v -> v_sum OR v = rsum (contents v).
Proof.
  intros H. rewrite <- (map_id (contents v)). revert s v H. intros s v. apply (tree_sum (v_sum OR) (fun x => x)); [|reflexivity].
  intros n d Hd. rewrite map_id. cbn [v_sum]. unfold d_sum.
  destruct (dden_cases n d) as [[E1 E2]|[E1 E2]]; rewrite E1, E2; rewrite ?sum_eq; ops; [rewrite rsum_repeat|]; reflexivity.
Qed.
Lemma v_sumlogs_eq s v : vok s v -> v_sumlogs OR v = rsum (map lg (contents v)).
Proof.
  apply tree_sum; [|reflexivity]. intros n d Hd. cbn [v_sumlogs]. unfold d_sumlogs.
  destruct n as [|n]; cbn [Nat.eqb].
  { pose proof (dden_length _ _ Hd) as E. destruct (dden 0 d); [reflexivity|discriminate E]. }
  destruct (dden_cases (S n) d) as [[E1 E2]|[E1 E2]]; rewrite E1, E2; rewrite ?sum_eq; ops; [rewrite map_repeat, rsum_repeat|]; reflexivity.
Qed.
Lemma rsum_sq_pos l : 0 <= rsum (map (fun y => y * y) l).
Proof. induction l; simpl; [lra|]. pose proof (Rle_0_sqr a). unfold Rsqr in *. lra. Qed.
Lemma v_nrm2_eq s v : vok s v -> v_nrm2 OR v = sqrt (rsum (map (fun y => y * y) (contents v))).
Proof.
  revert s. induction v as [n d|l IH] using vec_ind'; intros s H; inversion H as [? ? Hd|ls ? Hl]; subst.
  - cbn [v_nrm2 contents]. unfold d_nrm2.
    destruct (dden_cases n d) as [[E1 E2]|[E1 E2]]; rewrite E1, E2; rewrite ?sum_eq; ops; [|reflexivity].
    rewrite map_repeat, rsum_repeat, sqrt_mult by (try apply pos_INR; try nra).
    f_equal. rewrite <- sqrt_Rsqr_abs. reflexivity.
  - cbn [v_nrm2 contents]. ops. f_equal. clear H.
    replace (rsum (map (fun y => y * y) (concat (map contents l)))) with (0 + rsum (map (fun y => y * y) (concat (map contents l)))) by ring.
    generalize 0. induction Hl as [|s v ls l Hv Hl IHl]; intros t; simpl; [ring|].
    apply Forall_cons_iff in IH. destruct IH as [Iv Il]. rewrite IHl by auto. rewrite map_app, rsum_app, (Iv s) by auto.
    rewrite sqrt_sqrt by apply rsum_sq_pos. ring.
Qed.

(** extrema *)
Lemma tmax_R a b : tmax OR a b = Rmax a b.
Proof. unfold tmax. ops. unfold Rlt_bool, Rmax. destruct (Rcompare_spec a b), (Rle_dec a b); lra. Qed.
Lemma tmin_R a b : tmin OR a b = Rmin a b.
Proof. unfold tmin. ops. unfold Rlt_bool, Rmin. destruct (Rcompare_spec b a), (Rle_dec a b); lra. Qed.

Definition max_from (b m : R) (l : list R) : Prop := (m = b \/ In m l) /\ b <= m /\ forall x, In x l -> x <= m.
Lemma max_from_nil b : max_from b b [].
Proof. split; [auto|split; [lra|intros x []]]. Qed.
Lemma max_from_app b m l x m' k : max_from b m l -> is_max x k -> m' = Rmax m x -> max_from b m' (l ++ k).
Proof.
  intros (H1 & H2 & H3) (H4 & H5) ->. pose proof (Rmax_l m x). pose proof (Rmax_r m x). split; [|split].
  - unfold Rmax. destruct (Rle_dec m x); [right; apply in_or_app; auto|]. destruct H1; [auto|right; apply in_or_app; auto].
  - lra.
  - intros y Hy. apply in_app_iff in Hy. destruct Hy as [Hy|Hy]; [apply H3 in Hy|apply H5 in Hy]; lra.
Qed.
Lemma is_max_from b m l : is_max m l -> forall x, max_from b x l -> b <= m -> x = m.
Proof.
  intros [H1 H2] x ([->|H3] & H4 & H5) Hb.
  - apply H5 in H1. lra.
  - apply H5 in H1. apply H2 in H3. lra.
Qed.
Lemma is_max_single a : is_max a [a].
Proof. split; [left; reflexivity|]. intros x [<-|[]]. lra. Qed.
Lemma is_max_app m k a b : is_max a m -> is_max b k -> is_max (Rmax a b) (m ++ k).
Proof.
  intros [H1 H2] [H3 H4]. pose proof (Rmax_l a b). pose proof (Rmax_r a b). split.
  - unfold Rmax; destruct (Rle_dec a b); apply in_or_app; auto.
  - intros x Hx. apply in_app_iff in Hx. destruct Hx as [Hx|Hx]; [apply H2 in Hx|apply H4 in Hx]; lra.
Qed.
Lemma is_min_max m l : is_min m l <-> is_max (- m) (map Ropp l).
Proof.
  split; intros [H1 H2]; split.
  - apply in_map; auto.
  - intros x Hx. apply in_map_iff in Hx. destruct Hx as (y & <- & Hy). apply H2 in Hy. lra.
  - apply in_map_iff in H1. destruct H1 as (y & Hy & H1). replace m with y by lra. exact H1.
  - intros x Hx. specialize (H2 (- x) (in_map _ _ _ Hx)). lra.
Qed.

Lemma blas_amax_max l : l <> [] -> is_max (blas_amax OR l) (map Rabs l).
Proof.
  destruct l as [|a l]; [congruence|]. intros _. cbn [blas_amax]. ops.
  assert (H : forall l k m, is_max m k -> is_max (fold_left (fun m y => if Rlt_bool m (Rabs y) then Rabs y else m) l m) (k ++ map Rabs l)).
  { clear a l. induction l; intros k m Hm; simpl; [rewrite app_nil_r; exact Hm|].
    replace (k ++ Rabs a :: map Rabs l) with ((k ++ [Rabs a]) ++ map Rabs l) by (rewrite <- app_assoc; reflexivity).
    apply IHl. replace (if Rlt_bool m (Rabs a) then Rabs a else m) with (Rmax m (Rabs a)) by (rewrite <- tmax_R; reflexivity).
    apply is_max_app; [exact Hm|apply is_max_single]. }
  apply (H l [Rabs a]), is_max_single.
Qed.
Lemma fold_max_max l : l <> [] -> is_max (fold_max OR l) l.
Proof.
  destruct l as [|a l]; [congruence|]. intros _. cbn [fold_max].
  assert (H : forall l k m, is_max m k -> is_max (fold_left (fun m y => tmax OR y m) l m) (k ++ l)).
  { clear a l. induction l; intros k m Hm; simpl; [rewrite app_nil_r; exact Hm|].
    replace (k ++ a :: l) with ((k ++ [a]) ++ l) by (rewrite <- app_assoc; reflexivity).
    apply IHl. rewrite tmax_R, Rmax_comm. apply is_max_app; [exact Hm|apply is_max_single]. }
  apply (H l [a]), is_max_single.
Qed.
Lemma is_min_single a : is_min a [a].
Proof. apply is_min_max, is_max_single. Qed.
Lemma is_min_app m k a b : is_min a m -> is_min b k -> is_min (Rmin a b) (m ++ k).
Proof.
  rewrite !is_min_max, map_app. intros H1 H2. rewrite Ropp_Rmin. apply is_max_app; auto.
Qed.
Lemma fold_min_min l : l <> [] -> is_min (fold_min OR l) l.
Proof.
  destruct l as [|a l]; [congruence|]. intros _. cbn [fold_min].
  assert (H : forall l k m, is_min m k -> is_min (fold_left (fun m y => tmin OR y m) l m) (k ++ l)).
  { clear a l. induction l; intros k m Hm; simpl; [rewrite app_nil_r; exact Hm|].
    replace (k ++ a :: l) with ((k ++ [a]) ++ l) by (rewrite <- app_assoc; reflexivity).
    apply IHl. rewrite tmin_R, Rmin_comm. apply is_min_app; [exact Hm|apply is_min_single]. }
  apply (H l [a]), is_min_single.
Qed.

Lemma v_amax_from s v : vok s v -> max_from 0 (v_amax OR v) (map Rabs (contents v)).
Proof.
  revert s. induction v as [n d|l IH] using vec_ind'; intros s H; inversion H as [? ? Hd|ls ? Hl]; subst.
  - cbn [v_amax contents]. rewrite (d_amax_of OR (R_laws lg)) by auto. unfold amax_of. destruct (dden n d) as [|a l] eqn:E; [apply max_from_nil|].
    destruct (blas_amax_max (a :: l)) as [H1 H2]; [congruence|]. split; [right; exact H1|split; [|exact H2]].
    apply in_map_iff in H1. destruct H1 as (y & <- & _). apply Rabs_pos.
  - cbn [v_amax contents]. ops. clear H.
    assert (K : forall k m, max_from 0 m k -> max_from 0 (fold_left (tmax OR) (map (v_amax OR) l) m) (k ++ map Rabs (concat (map contents l)))).
    { induction Hl as [|s v ls l Hv Hl IHl]; intros k m Hm; simpl; [rewrite app_nil_r; exact Hm|].
      apply Forall_cons_iff in IH. destruct IH as [Iv Il]. rewrite map_app, app_assoc. apply IHl; auto.
      destruct (Iv s Hv) as (A1 & A2 & A3). destruct Hm as (B1 & B2 & B3). rewrite tmax_R.
      pose proof (Rmax_l m (v_amax OR v)). pose proof (Rmax_r m (v_amax OR v)). split; [|split].
      - unfold Rmax. destruct (Rle_dec m (v_amax OR v)).
        + destruct A1 as [A1|A1]; [left; exact A1|right; apply in_or_app; auto].
        + destruct B1 as [B1|B1]; [left; exact B1|right; apply in_or_app; auto].
      - lra.
      - intros x Hx. apply in_app_iff in Hx. destruct Hx as [Hx|Hx]; [apply B3 in Hx|apply A3 in Hx]; lra. }
    apply (K [] 0), max_from_nil.
Qed.

Lemma v_amax_eq s v : vok s v -> contents v <> [] -> is_max (v_amax OR v) (map Rabs (contents v)).
Proof.
  intros H Hn. destruct (v_amax_from _ _ H) as (H1 & H2 & H3). split; [|exact H3].
  destruct H1 as [H1|H1]; [|exact H1]. destruct (contents v) as [|a l]; [congruence|].
  left. assert (Rabs a <= v_amax OR v) by (apply H3; left; reflexivity). pose proof (Rabs_pos a). lra.
Qed.

Notation huge := (thuge OR).
(** the maximum of a vector with at least one element, where -DBL_MAX takes part if compound *)
Lemma v_max_from s v : vok s v -> contents v <> [] ->
  (forall x, In x (contents v) -> x <= v_max OR v) /\ (In (v_max OR v) (contents v) \/ v_max OR v = - huge).
Proof.
  revert s. induction v as [n d|l IH] using vec_ind'; intros s H Hn; inversion H as [? ? Hd|ls ? Hl]; subst.
  - cbn [v_max contents] in *. rewrite (d_max_of OR (R_laws lg)) by auto. unfold max_of. destruct (dden n d) as [|a l] eqn:E; [congruence|].
    destruct (fold_max_max (a :: l)) as [H1 H2]; [congruence|]. auto.
  - cbn [v_max contents] in *. clear H Hn.
    assert (K : forall k m, (forall x, In x k -> x <= m) -> (In m k \/ m = - huge) ->
      let r := fold_left (fun m p => if negb (fst p =? 0)%nat then tmax OR m (snd p) else m) (map (fun c => (dim c, v_max OR c)) l) m in
      (forall x, In x (k ++ concat (map contents l)) -> x <= r) /\ (In r (k ++ concat (map contents l)) \/ r = - huge)).
    { induction Hl as [|s v ls l Hv Hl IHl]; intros k m Hm Hm2; simpl; [rewrite app_nil_r; auto|].
      apply Forall_cons_iff in IH. destruct IH as [Iv Il]. rewrite app_assoc.
      pose proof (vok_dim _ _ Hv) as E1. pose proof (vok_length _ _ Hv) as E2.
      destruct (Nat.eqb_spec (dim v) 0) as [E|E]; cbn [negb].
      - assert (contents v = []) as -> by (destruct (contents v); [reflexivity|simpl in *; lia]). rewrite app_nil_r. apply IHl; auto.
      - destruct (Iv s Hv) as [A1 A2]; [destruct (contents v); [simpl in *; lia|congruence]|].
        apply IHl; auto; rewrite tmax_R; pose proof (Rmax_l m (v_max OR v)); pose proof (Rmax_r m (v_max OR v)).
        + intros x Hx. apply in_app_iff in Hx. destruct Hx as [Hx|Hx]; [apply Hm in Hx|apply A1 in Hx]; lra.
        + unfold Rmax. destruct (Rle_dec m (v_max OR v)).
          * destruct A2; [left; apply in_or_app; auto|auto].
          * destruct Hm2; [left; apply in_or_app; auto|auto]. }
    specialize (K [] (- huge)). cbv zeta in K. simpl app in K. apply K; [intros x []|auto].
Qed.
Lemma v_max_eq s v : vok s v -> (exists x, In x (contents v) /\ - huge <= x) -> is_max (v_max OR v) (contents v).
Proof.
  intros H (x & Hx & Hh). assert (Hn : contents v <> []) by (intros E; rewrite E in Hx; destruct Hx).
  destruct (v_max_from _ _ H Hn) as [K1 K2]. split; [|exact K1]. destruct K2 as [K2|K2]; [exact K2|].
  apply K1 in Hx as Hx2. replace (v_max OR v) with x by lra. exact Hx.
Qed.
Lemma v_min_from s v : vok s v -> contents v <> [] ->
  (forall x, In x (contents v) -> v_min OR v <= x) /\ (In (v_min OR v) (contents v) \/ v_min OR v = huge).
Proof.
  revert s. induction v as [n d|l IH] using vec_ind'; intros s H Hn; inversion H as [? ? Hd|ls ? Hl]; subst.
  - cbn [v_min contents] in *. rewrite (d_min_of OR (R_laws lg)) by auto. unfold min_of. destruct (dden n d) as [|a l] eqn:E; [congruence|].
    destruct (fold_min_min (a :: l)) as [H1 H2]; [congruence|]. auto.
  - cbn [v_min contents] in *. clear H Hn.
    assert (K : forall k m, (forall x, In x k -> m <= x) -> (In m k \/ m = huge) ->
      let r := fold_left (fun m p => if negb (fst p =? 0)%nat then tmin OR m (snd p) else m) (map (fun c => (dim c, v_min OR c)) l) m in
      (forall x, In x (k ++ concat (map contents l)) -> r <= x) /\ (In r (k ++ concat (map contents l)) \/ r = huge)).
    { induction Hl as [|s v ls l Hv Hl IHl]; intros k m Hm Hm2; simpl; [rewrite app_nil_r; auto|].
      apply Forall_cons_iff in IH. destruct IH as [Iv Il]. rewrite app_assoc.
      pose proof (vok_dim _ _ Hv) as E1. pose proof (vok_length _ _ Hv) as E2.
      destruct (Nat.eqb_spec (dim v) 0) as [E|E]; cbn [negb].
      - assert (contents v = []) as -> by (destruct (contents v); [reflexivity|simpl in *; lia]). rewrite app_nil_r. apply IHl; auto.
      - destruct (Iv s Hv) as [A1 A2]; [destruct (contents v); [simpl in *; lia|congruence]|].
        apply IHl; auto; rewrite tmin_R; pose proof (Rmin_l m (v_min OR v)); pose proof (Rmin_r m (v_min OR v)).
        + intros x Hx. apply in_app_iff in Hx. destruct Hx as [Hx|Hx]; [apply Hm in Hx|apply A1 in Hx]; lra.
        + unfold Rmin. destruct (Rle_dec m (v_min OR v)).
          * destruct Hm2; [left; apply in_or_app; auto|auto].
          * destruct A2; [left; apply in_or_app; auto|auto]. }
    specialize (K [] huge). cbv zeta in K. simpl app in K. apply K; [intros x []|auto].
Qed.
Lemma v_min_eq s v : vok s v -> (exists x, In x (contents v) /\ x <= huge) -> is_min (v_min OR v) (contents v).
Proof.
  intros H (x & Hx & Hh). assert (Hn : contents v <> []) by (intros E; rewrite E in Hx; destruct Hx).
  destruct (v_min_from _ _ H Hn) as [K1 K2]. split; [|exact K1]. destruct K2 as [K2|K2]; [exact K2|].
  apply K1 in Hx as Hx2. replace (v_min OR v) with x by lra. exact Hx.
Qed.

(** fraction to the boundary *)
Lemma frac_char_rule tau d x a : 0 <= tau -> length d = length x -> Forall (fun x => 0 <= x) x ->
  frac_char OR (fun _ => True) tau (combine d x) a -> frac_rule tau x d a.
Proof.
  intros Ht Ln Hx (_ & Ha & H1 & Hl). ops.
  assert (H1' : a <= 1) by (unfold Rlt_bool in H1; destruct (Rcompare_spec 1 a); try discriminate; lra). clear H1.
  assert (Hin : forall p, In p (combine d x) -> 0 <= snd p).
  { intros [u w] Hp. apply in_combine_r in Hp. rewrite Forall_forall in Hx. apply Hx, Hp. }
  assert (Hl' : forall p, In p (combine d x) -> fst p < 0 -> a * (- fst p) <= tau * snd p).
  { intros p Hp Hn. specialize (Hl p Hp). rewrite Rlt_bool_true in Hl by exact Hn. specialize (Hl eq_refl).
    unfold ratio in Hl. ops. unfold Rlt_bool in Hl. destruct (Rcompare_spec (- tau / fst p * snd p) a) as [K|K|K]; try discriminate Hl.
    - rewrite <- K. right. field. lra.
    - apply Rmult_lt_compat_r with (r := - fst p) in K; [|lra]. left. eapply Rlt_le_trans; [exact K|]. right. field. lra. }
  assert (Ha0 : 0 <= a).
  { destruct Ha as [->|(p & Hp & Hn & ->)]; [lra|]. unfold ratio; ops.
    assert (fst p < 0) by (unfold Rlt_bool in Hn; destruct (Rcompare_spec (fst p) 0); try discriminate; lra).
    specialize (Hin p Hp). replace (- tau / fst p * snd p) with (tau * snd p * / - fst p) by (field; lra).
    apply Rmult_le_pos; [nra|]. left. apply Rinv_0_lt_compat. lra. }
  split; [split; auto|]. split.
  - unfold keeps_fraction. clear Ha Hl. revert x Ln Hx Hin Hl'. induction d as [|d0 d IH]; intros [|x0 x] Ln Hx Hin Hl'; try discriminate Ln; constructor.
    + assert (0 <= x0) by (apply (Hin (d0, x0)); left; reflexivity).
      destruct (Rlt_or_le d0 0) as [Hn|Hn]; [|nra].
      specialize (Hl' (d0, x0) (or_introl eq_refl) Hn). simpl in Hl'. lra.
    + inversion Hx; subst. apply IH; auto; intros p Hp; [apply Hin|apply Hl']; right; exact Hp.
  - intros b Hb Kb. destruct Ha as [->|(p & Hp & Hn & ->)]; [lra|].
    assert (Hneg : fst p < 0) by (unfold Rlt_bool in Hn; destruct (Rcompare_spec (fst p) 0); try discriminate; lra).
    assert (Kp : snd p + b * fst p >= (1 - tau) * snd p).
    { clear -Kb Hp. unfold keeps_fraction in Kb. revert x Kb Hp. induction d; intros x Kb Hp; [destruct Hp|].
      inversion Kb; subst. simpl in Hp. destruct Hp as [<-|Hp]; [simpl; assumption|eapply IHd; eauto]. }
    unfold ratio; ops. apply Rmult_le_reg_r with (- fst p); [lra|].
    replace (- tau / fst p * snd p * - fst p) with (tau * snd p) by (field; lra). lra.
Qed.
Lemma v_frac_rule s tau d x : vok s d -> vok s x -> 0 <= tau -> Forall (fun x => 0 <= x) (contents x) ->
  frac_rule tau (contents x) (contents d) (v_frac OR tau d x).
Proof.
  intros Hd Hx Ht Hp. apply frac_char_rule; auto.
  - rewrite (vok_length _ _ Hd), (vok_length _ _ Hx). reflexivity.
  - eapply v_frac_char; eauto. apply R_laws. apply R_order.
Qed.
End Reals.
