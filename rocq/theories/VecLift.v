(** Operations on compound vectors and on heaps of vectors. *)
From Coq Require Import List Bool Arith ZArith Reals Lia Lra.
From Flocq Require Import Core BinarySingleNaN.
From Verif Require Import Num VecModel VecSpec VecProofs.
Import ListNotations.
Local Open Scope nat_scope.

Section Lift.
Context {T : Type} (O : nops T).

Lemma vec_ind' (P : vec T -> Prop) : (forall n d, P (Dense n d)) -> (forall l, Forall P l -> P (Comp l)) -> forall v, P v.
Proof.
  intros HD HC. fix IH 1. intros [n d|l]; [apply HD|]. apply HC. induction l; constructor; auto.
Qed.

(** dimension of a space *)
Fixpoint sdim (s : space) : nat := match s with SD n => n | SC l => list_sum (map sdim l) end.

Lemma vok_length s (v : vec T) : vok s v -> length (contents v) = sdim s.
Proof.
  revert s; induction v as [n d|l IH] using vec_ind'; intros s H; inversion H as [? ? Hd|ls ? Hl]; subst; simpl.
  - apply dden_length; auto.
  - clear H. induction Hl as [|s v ls l Hv Hl IHl]; simpl; [reflexivity|].
    apply Forall_cons_iff in IH. destruct IH as [Iv Il]. rewrite app_length, (Iv _ Hv). f_equal. apply IHl; auto.
Qed.
Lemma vok_dim s (v : vec T) : vok s v -> dim v = sdim s.
Proof.
  revert s; induction v as [n d|l IH] using vec_ind'; intros s H; inversion H as [? ? Hd|ls ? Hl]; subst; simpl; [reflexivity|].
  clear H. induction Hl as [|s v ls l Hv Hl IHl]; simpl; [reflexivity|].
  apply Forall_cons_iff in IH. destruct IH as [Iv Il]. rewrite (Iv _ Hv). f_equal. apply IHl; auto.
Qed.

Definition dense1 (P : T -> Prop) (f : nat -> dvec T -> dvec T) (g : T -> T) : Prop :=
  forall n d, dok n d -> Forall P (dden n d) -> dok n (f n d) /\ dden n (f n d) = map g (dden n d).
Definition dense2 (P : T -> Prop) (f : nat -> dvec T -> dvec T -> dvec T) (g : T -> T -> T) : Prop :=
  forall n x d, dok n x -> dok n d -> Forall P (dden n d) -> dok n (f n x d) /\ dden n (f n x d) = map2 g (dden n d) (dden n x).
Definition dense3 (P : T -> Prop) (f : nat -> dvec T -> dvec T -> dvec T -> dvec T) (g : T -> T -> T -> T) : Prop :=
  forall n x z d, dok n x -> dok n z -> dok n d -> Forall P (dden n d) ->
    dok n (f n x z d) /\ dden n (f n x z d) = map3 g (dden n d) (dden n x) (dden n z).

Lemma lift1_ok P f g : dense1 P f g -> forall v s, vok s v -> Forall P (contents v) ->
  vok s (lift1 f v) /\ contents (lift1 f v) = map g (contents v).
Proof.
  intros Hf v. induction v as [n d|l IH] using vec_ind'; intros s H HP; inversion H as [? ? Hd|ls ? Hl]; subst; simpl in *.
  - destruct (Hf n d Hd HP) as [K1 K2]. split; [constructor; exact K1|exact K2].
  - clear H. cut (Forall2 vok ls (map (lift1 f) l) /\ concat (map contents (map (lift1 f) l)) = map g (concat (map contents l))).
    { intros [K1 K2]. split; [constructor; exact K1|exact K2]. }
    induction Hl as [|s v ls l Hv Hl IHl]; simpl; [repeat constructor|].
    apply Forall_cons_iff in IH. destruct IH as [Iv Il]. simpl in HP. apply Forall_app in HP. destruct HP as [P1 P2].
    destruct (Iv _ Hv P1) as [K1 K2]. destruct (IHl Il P2) as [K3 K4].
    split; [constructor; auto|]. rewrite K2, K4, map_app. reflexivity.
Qed.

Lemma lift2_ok P f g : dense2 P f g -> forall v x s, vok s x -> vok s v -> Forall P (contents v) ->
  vok s (lift2 f x v) /\ contents (lift2 f x v) = map2 g (contents v) (contents x).
Proof.
  intros Hf v. induction v as [n d|l IH] using vec_ind'; intros x s Hx H HP; inversion H as [? ? Hd|ls ? Hl]; subst; simpl in *.
  - inversion Hx as [? ? Hdx|]; subst. simpl in *. destruct (Hf n d0 d Hdx Hd HP) as [K1 K2]. split; [constructor; exact K1|exact K2].
  - inversion Hx as [|? lx Hlx]; subst. clear H Hx.
    set (go := fix go l lx {struct l} := match l, lx with v :: l, x :: lx => lift2 f x v :: go l lx | _, _ => [] end).
    cut (Forall2 vok ls (go l lx) /\ concat (map contents (go l lx)) = map2 g (concat (map contents l)) (concat (map contents lx))).
    { intros [K1 K2]. split; [constructor; exact K1|exact K2]. }
    revert lx Hlx. induction Hl as [|s v ls l Hv Hl IHl]; intros lx Hlx; inversion Hlx as [|? x ? lx' Hvx Hlx']; subst; simpl; [repeat constructor|].
    apply Forall_cons_iff in IH. destruct IH as [Iv Il]. simpl in HP. apply Forall_app in HP. destruct HP as [P1 P2].
    destruct (Iv _ _ Hvx Hv P1) as [K1 K2]. destruct (IHl Il P2 _ Hlx') as [K3 K4].
    split; [constructor; auto|]. rewrite K2, K4, map2_app; [reflexivity|].
    rewrite (vok_length _ _ Hv), (vok_length _ _ Hvx). reflexivity.
Qed.

Lemma lift3_ok P f g : dense3 P f g -> forall v x z s, vok s x -> vok s z -> vok s v -> Forall P (contents v) ->
  vok s (lift3 f x z v) /\ contents (lift3 f x z v) = map3 g (contents v) (contents x) (contents z).
Proof.
  intros Hf v. induction v as [n d|l IH] using vec_ind'; intros x z s Hx Hz H HP; inversion H as [? ? Hd|ls ? Hl]; subst; simpl in *.
  - inversion Hx as [? ? Hdx|]; subst. inversion Hz as [? ? Hdz|]; subst. simpl in *.
    destruct (Hf n d0 d1 d Hdx Hdz Hd HP) as [K1 K2]. split; [constructor; exact K1|exact K2].
  - inversion Hx as [|? lx Hlx]; subst. inversion Hz as [|? lz Hlz]; subst. clear H Hx Hz.
    set (go := fix go l lx lz {struct l} :=
               match l, lx, lz with v :: l, x :: lx, z :: lz => lift3 f x z v :: go l lx lz | _, _, _ => [] end).
    cut (Forall2 vok ls (go l lx lz) /\ concat (map contents (go l lx lz)) = map3 g (concat (map contents l)) (concat (map contents lx)) (concat (map contents lz))).
    { intros [K1 K2]. split; [constructor; exact K1|exact K2]. }
    revert lx lz Hlx Hlz. induction Hl as [|s v ls l Hv Hl IHl]; intros lx lz Hlx Hlz;
      inversion Hlx as [|? x ? lx' Hvx Hlx']; inversion Hlz as [|? z ? lz' Hvz Hlz']; subst; simpl; [repeat constructor|].
    apply Forall_cons_iff in IH. destruct IH as [Iv Il]. simpl in HP. apply Forall_app in HP. destruct HP as [P1 P2].
    destruct (Iv _ _ _ Hvx Hvz Hv P1) as [K1 K2]. destruct (IHl Il P2 _ _ Hlx' Hlz') as [K3 K4].
    split; [constructor; auto|]. rewrite K2, K4, map3_app; [reflexivity| |];
    rewrite ?(vok_length _ _ Hv), ?(vok_length _ _ Hvx), ?(vok_length _ _ Hvz); reflexivity.
Qed.

(** from statements about positions to [dense1..3] *)
Lemma d1 f g : (forall n e d, drep n e d -> drep n (fun i => g (e i)) (f n d)) -> dense1 (fun _ => True) f g.
Proof.
  intros H n d Hd _. destruct (dok_rep O _ _ Hd) as [e He]. destruct (H _ _ _ He) as [K1 K2]. split; [exact K1|].
  destruct He as [_ He]. rewrite K2, He. lists. reflexivity.
Qed.
Lemma d2 f g : (forall n ex e x d, drep n ex x -> drep n e d -> drep n (fun i => g (e i) (ex i)) (f n x d)) -> dense2 (fun _ => True) f g.
Proof.
  intros H n x d Hx Hd _. destruct (dok_rep O _ _ Hd) as [e He]. destruct (dok_rep O _ _ Hx) as [ex Hex].
  destruct (H _ _ _ _ _ Hex He) as [K1 K2]. split; [exact K1|].
  destruct He as [_ He], Hex as [_ Hex]. rewrite K2, He, Hex. lists. reflexivity.
Qed.
Lemma d3 f g : (forall n ex ez e x z d, drep n ex x -> drep n ez z -> drep n e d -> drep n (fun i => g (e i) (ex i) (ez i)) (f n x z d)) ->
  dense3 (fun _ => True) f g.
Proof.
  intros H n x z d Hx Hz Hd _. destruct (dok_rep O _ _ Hd) as [e He]. destruct (dok_rep O _ _ Hx) as [ex Hex]. destruct (dok_rep O _ _ Hz) as [ez Hez].
  destruct (H _ _ _ _ _ _ _ Hex Hez He) as [K1 K2]. split; [exact K1|].
  destruct He as [_ He], Hex as [_ Hex], Hez as [_ Hez]. rewrite K2, He, Hex, Hez. lists. reflexivity.
Qed.
Lemma allT (l : list T) : Forall (fun _ => True) l.
Proof. apply Forall_forall. auto. Qed.

Context (L : laws O).
Context (junk : nat -> list T) (Hj : forall n, length (junk n) = n).

(** element-wise operations: exactly the documented effect *)
Lemma exec_elementwise sp h i o : (forall j, vok (sp j) (h j)) -> legal sp i o -> elementwise o = true ->
  vok (sp i) (exec O junk h i o) /\ contents (exec O junk h i o) = effect O (fun j => contents (h j)) i o.
Proof.
  intros Hh Hl He. pose proof (Hh i) as Hi.
  destruct o; cbn [legal elementwise exec effect] in *; try discriminate.
  - pose proof (Hh x) as Hx. rewrite Hl in Hx.
    assert (K : dense2 (fun _ => True) (fun _ => d_copy) (fun _ q => q)) by (apply d2; intros; eapply copy_rep; eauto).
    destruct (lift2_ok _ _ _ K (h i) (h x) (sp i) Hx Hi (allT _)) as [K1 K2]. split; [exact K1|]. rewrite K2.
    pose proof (vok_length _ _ Hi) as E1. pose proof (vok_length _ _ Hx) as E2. rewrite <- E1 in E2. clear -E2.
    revert E2. generalize (contents (h x)), (contents (h i)). induction l; intros [|]; simpl; intros; try lia; auto. f_equal; auto.
  - refine (lift1_ok _ _ _ (d1 _ _ _) _ _ Hi (allT _)). intros. apply scal_rep; auto.
  - refine (lift1_ok _ _ (fun _ => a) (d1 _ _ _) _ _ Hi (allT _)). intros. apply set_rep.
  - pose proof (Hh x) as Hx. rewrite Hl in Hx. refine (lift2_ok _ _ _ (d2 _ _ _) _ _ _ Hx Hi (allT _)). intros. apply div_rep; auto.
  - pose proof (Hh x) as Hx. rewrite Hl in Hx. refine (lift2_ok _ _ _ (d2 _ _ _) _ _ _ Hx Hi (allT _)). intros. apply mul_rep; auto.
  - pose proof (Hh x) as Hx. rewrite Hl in Hx. refine (lift2_ok _ _ _ (d2 _ (tmax O) _) _ _ _ Hx Hi (allT _)). intros. apply emax_rep; auto.
  - pose proof (Hh x) as Hx. rewrite Hl in Hx. refine (lift2_ok _ _ _ (d2 _ (tmin O) _) _ _ _ Hx Hi (allT _)). intros. apply emin_rep; auto.
  - refine (lift1_ok _ _ _ (d1 _ _ _) _ _ Hi (allT _)). intros. apply recip_rep; auto.
  - refine (lift1_ok _ _ _ (d1 _ _ _) _ _ Hi (allT _)). intros. apply map_rep; auto.
  - refine (lift1_ok _ _ _ (d1 _ _ _) _ _ Hi (allT _)). intros. apply map_rep; auto.
  - refine (lift1_ok _ _ _ (d1 _ (sign O) _) _ _ Hi (allT _)). intros. apply (map_rep n (sgn O)); auto.
  - refine (lift1_ok _ _ _ (d1 _ _ _) _ _ Hi (allT _)). intros. apply addscalar_rep; auto.
  - destruct Hl as [E1 E2]. pose proof (Hh x) as Hx. rewrite E1 in Hx. pose proof (Hh z) as Hz. rewrite E2 in Hz.
    refine (lift3_ok _ _ _ (d3 _ _ _) _ _ _ _ Hx Hz Hi (allT _)). intros. apply addquot_rep; auto.
  - rewrite Hl in *. inversion Hi as [? d Hd|]; subst. destruct (setvalues_rep O _ l d eq_refl) as [K1 K2].
    split; [constructor; exact K1|]. reflexivity.
  - destruct Hl as (n & E & Hk). rewrite E in *. inversion Hi as [? d Hd|]; subst.
    destruct (write_dden O n (junk n) i0 a d Hd) as [K1 K2]. split; [constructor; exact K1|exact K2].
  - destruct Hl as (n & nx & E1 & E2 & Hk). rewrite E1 in *. pose proof (Hh x) as Hx. rewrite E2 in Hx.
    inversion Hi as [? d Hd|]; subst. inversion Hx as [? dx Hdx|]; subst.
    destruct (copyfrompos_dden n nx (junk n) pos dx d Hd Hdx Hk) as [K1 K2]. split; [constructor; exact K1|].
    simpl. rewrite (dden_length _ _ Hd). exact K2.
Qed.
End Lift.
