(** Operations that overwrite their target may be applied to a vector fresh from
    MakeNew(), whose elements have no values yet. *)
From Coq Require Import List Bool Arith ZArith Reals Lia Lra.
From Flocq Require Import Core BinarySingleNaN.
From Verif Require Import Num VecModel VecSpec VecProofs VecLift VecReal.
Import ListNotations.
Local Open Scope nat_scope.

(** a vector from MakeNew(): every dense part as its constructor leaves it, scalar_ arbitrary *)
Inductive vfresh {T} (O : nops T) : space -> vec T -> Prop :=
| vfresh_dense n j : vfresh O (SD n) (Dense n (d_new O n j))
| vfresh_comp ls l : Forall2 (vfresh O) ls l -> vfresh O (SC ls) (Comp l).

(** operations that do not read their target *)
Definition overwrites {T} (O : nops T) (i : nat) (o : op T) : Prop :=
  match o with
  | OCopy x => x <> i
  | OSet _ | OSetValues _ => True
  | OAddTwo _ x _ z c => x <> i /\ z <> i /\ c = t0 O
  | OAddOne _ x c => x <> i /\ c = t0 O
  | OAddQuot _ x z c => x <> i /\ z <> i /\ c = t0 O
  | OCopyFromPos _ x => x <> i
  | _ => False
  end.

Section Fresh.
Context {T : Type} (O : nops T).

Definition fresh1 (f : nat -> dvec T -> dvec T) (a : T) : Prop :=
  forall n j, dok n (f n (d_new O n j)) /\ dden n (f n (d_new O n j)) = repeat a n.
Definition fresh2 (f : nat -> dvec T -> dvec T -> dvec T) (g : T -> T) : Prop :=
  forall n j x, dok n x -> dok n (f n x (d_new O n j)) /\ dden n (f n x (d_new O n j)) = map g (dden n x).
Definition fresh3 (f : nat -> dvec T -> dvec T -> dvec T -> dvec T) (g : T -> T -> T) : Prop :=
  forall n j x z, dok n x -> dok n z -> dok n (f n x z (d_new O n j)) /\ dden n (f n x z (d_new O n j)) = map2 g (dden n x) (dden n z).

Lemma fresh1_ok f a : fresh1 f a -> forall v s, vfresh O s v -> vok s (lift1 f v) /\ contents (lift1 f v) = repeat a (sdim s).
Proof.
  intros Hf v. induction v as [n d|l IH] using vec_ind'; intros s H; inversion H as [? j|ls ? Hl]; subst; simpl in *.
  - destruct (Hf n j) as [K1 K2]. split; [constructor; exact K1|exact K2].
  - clear H. cut (Forall2 vok ls (map (lift1 f) l) /\ concat (map contents (map (lift1 f) l)) = repeat a (list_sum (map sdim ls))).
    { intros [K1 K2]. split; [constructor; exact K1|exact K2]. }
    induction Hl as [|s v ls l Hv Hl IHl]; simpl; [repeat constructor|].
    apply Forall_cons_iff in IH. destruct IH as [Iv Il].
    destruct (Iv _ Hv) as [K1 K2]. destruct (IHl Il) as [K3 K4].
    split; [constructor; auto|]. rewrite K2, K4, repeat_app. reflexivity.
Qed.
Lemma fresh2_ok f g : fresh2 f g -> forall v x s, vok s x -> vfresh O s v ->
  vok s (lift2 f x v) /\ contents (lift2 f x v) = map g (contents x).
Proof.
  intros Hf v. induction v as [n d|l IH] using vec_ind'; intros x s Hx H; inversion H as [? j|ls ? Hl]; subst; simpl in *.
  - inversion Hx as [? ? Hdx|]; subst. simpl in *. destruct (Hf n j d Hdx) as [K1 K2]. split; [constructor; exact K1|exact K2].
  - inversion Hx as [|? lx Hlx]; subst. clear H Hx.
    set (go := fix go l lx {struct l} := match l, lx with v :: l, x :: lx => lift2 f x v :: go l lx | _, _ => [] end).
    cut (Forall2 vok ls (go l lx) /\ concat (map contents (go l lx)) = map g (concat (map contents lx))).
    { intros [K1 K2]. split; [constructor; exact K1|exact K2]. }
    revert lx Hlx. induction Hl as [|s v ls l Hv Hl IHl]; intros lx Hlx; inversion Hlx as [|? x ? lx' Hvx Hlx']; subst; simpl; [repeat constructor|].
    apply Forall_cons_iff in IH. destruct IH as [Iv Il].
    destruct (Iv _ _ Hvx Hv) as [K1 K2]. destruct (IHl Il _ Hlx') as [K3 K4].
    split; [constructor; auto|]. rewrite K2, K4, map_app. reflexivity.
Qed.
Lemma fresh3_ok f g : fresh3 f g -> forall v x z s, vok s x -> vok s z -> vfresh O s v ->
  vok s (lift3 f x z v) /\ contents (lift3 f x z v) = map2 g (contents x) (contents z).
Proof.
  intros Hf v. induction v as [n d|l IH] using vec_ind'; intros x z s Hx Hz H; inversion H as [? j|ls ? Hl]; subst; simpl in *.
  - inversion Hx as [? ? Hdx|]; subst. inversion Hz as [? ? Hdz|]; subst. simpl in *.
    destruct (Hf n j d d0 Hdx Hdz) as [K1 K2]. split; [constructor; exact K1|exact K2].
  - inversion Hx as [|? lx Hlx]; subst. inversion Hz as [|? lz Hlz]; subst. clear H Hx Hz.
    set (go := fix go l lx lz {struct l} :=
               match l, lx, lz with v :: l, x :: lx, z :: lz => lift3 f x z v :: go l lx lz | _, _, _ => [] end).
    cut (Forall2 vok ls (go l lx lz) /\ concat (map contents (go l lx lz)) = map2 g (concat (map contents lx)) (concat (map contents lz))).
    { intros [K1 K2]. split; [constructor; exact K1|exact K2]. }
    revert lx lz Hlx Hlz. induction Hl as [|s v ls l Hv Hl IHl]; intros lx lz Hlx Hlz;
      inversion Hlx as [|? x ? lx' Hvx Hlx']; inversion Hlz as [|? z ? lz' Hvz Hlz']; subst; simpl; [repeat constructor|].
    apply Forall_cons_iff in IH. destruct IH as [Iv Il].
    destruct (Iv _ _ _ Hvx Hvz Hv) as [K1 K2]. destruct (IHl Il _ _ Hlx' Hlz') as [K3 K4].
    split; [constructor; auto|]. rewrite K2, K4, map2_app; [reflexivity|].
    rewrite ?(vok_length _ _ Hvx), ?(vok_length _ _ Hvz); reflexivity.
Qed.

Lemma fresh_set a : fresh1 (fun _ => d_set a) a.
Proof. intros n j. split; [apply (set_rep n a)|]. reflexivity. Qed.
Lemma fresh_copy : fresh2 (fun _ => d_copy) (fun q => q).
Proof.
  intros n j x (Hi & Hh & Hl). unfold d_copy, dden. rewrite map_id. destruct (hom x) eqn:E; cbn [hom scal].
  - split; [|reflexivity]. apply dok_hom. unfold d_new. destruct (Nat.eqb n 0); discriminate.
  - unfold vlist; cbn [vals]. split; [|reflexivity]. destruct (Hh eq_refl) as (l & El & Ll). rewrite El.
    split; [reflexivity|]; cbn [vals]. split; [intros _; eauto|intros m [= <-]; exact Ll].
Qed.
Context (L : laws O).
Lemma fresh_addquot junk a : (forall n, length (junk n) = n) -> teq O (t0 O) (t0 O) = true ->
  fresh3 (fun n z s => d_addquot O n (junk n) a z s (t0 O)) (fun p q => tdiv O (tmul O a p) q).
Proof.
  intros Hj E0 n j x z Hx Hz. unfold d_addquot. destruct n as [|n]; cbn [Nat.eqb].
  - unfold d_new; cbn [Nat.eqb]. split; [apply dok_hom; discriminate|].
    pose proof (dden_length _ _ Hx) as E. destruct (dden 0 x); [|discriminate]. reflexivity.
  - destruct (dok_rep O _ _ Hx) as [ex Rx]. destruct (dok_rep O _ _ Hz) as [ez Rz].
    assert (K : drep (S n) (fun i => tdiv O (tmul O a (ex i)) (ez i)) (d_addquot O (S n) (junk (S n)) a x z (t0 O) (d_new O (S n) j))).
    { unfold d_addquot, d_new. cbn [Nat.eqb hom scal vals].
      apply drep_cases in Rx. destruct Rx as [(? & ? & -> & ? & Rx)|(? & ->)]; [pose proof (const_in _ _ _ Rx)|];
      (apply drep_cases in Rz; destruct Rz as [(? & ? & -> & ? & Rz)|(? & ->)]; [pose proof (const_in _ _ _ Rz)|]);
      unfold vlist, allocated; cbn [hom scal vals]; rewrite E0; cbv iota; cbn [andb orb]; lists;
      (first [apply drep_hom | apply drep_arr]; intros; try discriminate;
       repeat match goal with H : (forall i, In i _ -> _ i = _), K : In _ _ |- _ => rewrite (H _ K); clear H end;
       try rewrite (l_comm O L _ a); auto). }
    unfold d_addquot in K. cbn [Nat.eqb] in K.
    destruct K as [K1 K2]. split; [exact K1|]. rewrite K2. destruct Rx as [_ ->], Rz as [_ ->]. rewrite map2_map. reflexivity.
Qed.
End Fresh.

Local Open Scope R_scope.
Lemma addtwo_default_fresh lg n a v1 b v2 (i h : bool) (s : R) o i' h' :
  d_addtwo_default (R_ops lg) n a false v1 b false v2 0 (DV i h s o) = d_addtwo_default (R_ops lg) n a false v1 b false v2 0 (DV i' h' s o).
Proof. unfold d_addtwo_default, deref, d_copy, d_set. cbn [R_ops teq t0 scal vals]. rewrite Req_bool_true by reflexivity. reflexivity. Qed.
Lemma fresh_addtwo lg junk a b : (forall n, length (junk n) = n) ->
  fresh3 (R_ops lg) (fun n v1 v2 => d_addtwo (R_ops lg) n (junk n) a false v1 b false v2 0) (fun p q => a * p + b * q).
Proof.
  intros Hj n j x z Hx Hz. destruct (dok_rep (R_ops lg) _ _ Hx) as [ex Rx]. destruct (dok_rep (R_ops lg) _ _ Hz) as [ez Rz].
  assert (K : drep n (fun i => a * ex i + b * ez i + 0 * nth i (junk n) 0) (d_addtwo (R_ops lg) n (junk n) a false x b false z 0 (d_new (R_ops lg) n j))).
  { destruct n as [|n]; [apply drep_0; unfold d_addtwo, d_new; cbn [Nat.eqb]; apply dok_hom; discriminate|].
    assert (D : dok (S n) (DV true false j (Some (junk (S n))))).
    { split; [reflexivity|]. cbn [vals]. split; [intros _; eexists; split; [reflexivity|apply Hj]|intros l [= <-]; apply Hj]. }
    assert (Rv : drep (S n) (fun i => nth i (junk (S n)) 0) (DV true false j (Some (junk (S n))))).
    { split; [exact D|]. unfold dden, vlist; cbn [hom vals]. pose proof (list_fun 0 (junk (S n))) as E. rewrite Hj in E. exact E. }
    assert (Hb : ~ (a = 0 /\ b = 1 /\ 0 = 1)) by lra.
    pose proof (addtwo_rep lg (S n) (junk (S n)) a b 0 ex ez _ x z _ Hb (Hj (S n)) Rx Rz Rv) as K.
    unfold d_addtwo, d_new in *. cbn [Nat.eqb hom scal vals init] in *. cbn [R_ops teq t0] in *. 
    rewrite (Req_bool_true 0 0) in * by reflexivity. cbn [orb andb negb] in *. cbv iota in *.
    unfold allocated in *. cbn [hom scal vals] in *.
    destruct (negb (Req_bool a 0) && hom x && (negb (Req_bool b 0) && hom z))%bool eqn:E.
    - destruct K as [K1 K2]. split; [apply dok_hom; discriminate|exact K2].
    - cbn [orb] in *. destruct (negb (Req_bool a 0) && hom x || negb (Req_bool b 0) && hom z)%bool eqn:E2.
      + erewrite addtwo_default_fresh. exact K.
      + exact K. }
  destruct K as [K1 K2]. split; [exact K1|]. rewrite K2. destruct Rx as [_ ->], Rz as [_ ->]. rewrite map2_map. apply map_ext. intros; ring.
Qed.

Lemma map2_repeat {A B C} (f : A -> B -> C) a m : map2 f (repeat a (length m)) m = map (f a) m.
Proof. induction m; simpl; congruence. Qed.
Lemma map3_repeat {A B C D} (f : A -> B -> C -> D) a m k : map3 f (repeat a (length m)) m k = map2 (f a) m k.
Proof. revert k; induction m; intros [|]; simpl; congruence. Qed.
Lemma map2_same {A B C} (f : A -> B -> C) (g : A -> C) l m : length l = length m -> (forall a b, f a b = g a) -> map2 f l m = map g l.
Proof. intros E H. revert m E; induction l; intros [|] E; simpl in *; try discriminate; auto. rewrite H. f_equal. apply IHl. lia. Qed.

(** The effect on a fresh target is the documented one, whatever elements [y] one
    pretends it had before. *)
Theorem C23_fresh_target_real lg junk sp h i o y : (forall n, length (junk n) = n) ->
  (forall j, j <> i -> vok (sp j) (h j)) -> vfresh (R_ops lg) (sp i) (h i) -> legal sp i o -> overwrites (R_ops lg) i o ->
  vok (sp i) (exec (R_ops lg) junk h i o) /\
  contents (exec (R_ops lg) junk h i o) =
    effect (R_ops lg) (lset (fun j => contents (h j)) i (repeat y (sdim (sp i)))) i o.
Proof.
  intros Hj Hh Hi Hl Ho.
  assert (Li : forall l, lset (fun j => contents (h j)) i l i = l) by (intros; unfold lset; rewrite Nat.eqb_refl; reflexivity).
  assert (Lx : forall l x, x <> i -> lset (fun j => contents (h j)) i l x = contents (h x)).
  { intros l x K. unfold lset. apply Nat.eqb_neq in K. rewrite K. reflexivity. }
  assert (Hd : forall x, x <> i -> sp x = sp i -> vok (sp i) (h x) /\ length (contents (h x)) = sdim (sp i)).
  { intros x K E. pose proof (Hh x K) as V. rewrite E in V. split; [exact V|]. apply vok_length in V. exact V. }
  destruct o; cbn [legal overwrites exec effect] in *; try contradiction; rewrite ?Li.
  - destruct (Hd x Ho Hl) as [V _]. destruct (fresh2_ok _ _ _ (fresh_copy _) (h i) (h x) _ V Hi) as [K1 K2].
    split; [exact K1|]. rewrite K2, map_id, Lx by auto. reflexivity.
  - destruct (fresh1_ok _ _ _ (fresh_set _ a) (h i) _ Hi) as [K1 K2]. split; [exact K1|]. rewrite K2. clear. induction (sdim (sp i)); simpl; congruence.
  - destruct Ho as (N1 & N2 & ->), Hl as [E1 E2]. destruct (Hd x N1 E1) as [V1 L1]. destruct (Hd z N2 E2) as [V2 L2].
    rewrite !Lx by auto. apply Nat.eqb_neq in N1, N2. rewrite N1, N2.
    destruct (fresh3_ok _ _ _ (fresh_addtwo lg junk a b Hj) (h i) (h x) (h z) _ V1 V2 Hi) as [K1 K2].
    split; [exact K1|]. cbn [R_ops t0] in *. rewrite K2, <- L1, map3_repeat. apply map2_ext. intros. cbn [tadd tmul R_ops]. ring.
  - destruct Ho as (N1 & ->). destruct (Hd x N1 Hl) as [V1 L1].
    rewrite !Lx by auto. apply Nat.eqb_neq in N1. rewrite N1.
    destruct (fresh3_ok _ _ _ (fresh_addtwo lg junk a 0 Hj) (h i) (h x) (h x) _ V1 V1 Hi) as [K1 K2].
    split; [exact K1|]. cbn [R_ops t0] in *. rewrite K2, <- L1, map2_repeat. apply map2_same; [reflexivity|]. intros. cbn [tadd tmul R_ops]. ring.
  - destruct Ho as (N1 & N2 & ->), Hl as [E1 E2]. destruct (Hd x N1 E1) as [V1 L1]. destruct (Hd z N2 E2) as [V2 L2].
    rewrite !Lx by auto.
    destruct (fresh3_ok _ _ _ (fresh_addquot (R_ops lg) (R_laws lg) junk a Hj (Req_bool_true 0 0 eq_refl)) (h i) (h x) (h z) _ V1 V2 Hi) as [K1 K2].
    split; [exact K1|]. rewrite K2, <- L1, map3_repeat. cbn [R_ops teq t0 tdiv tmul tadd].
    rewrite (Req_bool_true 0 0) by reflexivity. reflexivity.
  - rewrite Hl in *. inversion Hi; subst. split; [constructor; apply (setvalues_rep (R_ops lg)); reflexivity|reflexivity].
  - destruct Hl as (n & nx & E1 & E2 & Hk). rewrite E1 in *. pose proof (Hh x Ho) as Hx. rewrite E2 in Hx. rewrite Lx by auto.
    inversion Hi; subst. inversion Hx as [? dx Hdx|]; subst. unfold d_copyfrompos. cbn [sdim]. rewrite repeat_length.
    cbn [contents]. unfold dden at 2. destruct (hom dx) eqn:E.
    + split; [constructor; apply (set_rep n (scal dx))|]. unfold dden, d_set; cbn [hom scal].
      assert (K : forall k m, (m <= k)%nat -> firstn m (repeat (scal dx) k) = repeat (scal dx) m).
      { clear. induction k; intros [|m] H; simpl; auto; try lia. f_equal. apply IHk. lia. }
      assert (K2 : forall k m, skipn k (repeat (scal dx) m) = repeat (scal dx) (m - k)).
      { clear. induction k; intros [|m]; simpl; auto. }
      rewrite K2, K by lia. reflexivity.
    + assert (Hl : length (firstn n (skipn pos (vlist dx))) = n).
      { rewrite firstn_length, skipn_length. pose proof (dden_length _ _ Hdx) as K. unfold dden in K. rewrite E in K. lia. }
      split; [|reflexivity]. constructor. split; [reflexivity|]. cbn [vals hom].
      split; [intros _; eexists; split; [reflexivity|exact Hl]| intros l [= <-]; exact Hl].
Qed.
(** the hypotheses hold e.g. for a compound target from MakeNew() *)
Example fresh_example lg : vfresh (R_ops lg) (SC [SD 2; SD 3]) (Comp [Dense 2 (d_new (R_ops lg) 2 7); Dense 3 (d_new (R_ops lg) 3 8)])
  /\ overwrites (R_ops lg) 0 (OAddTwo 2 1 3 2 0).
Proof. split; [repeat constructor|cbn [overwrites]; repeat split; auto]. Qed.
Print Assumptions C23_fresh_target_real.
