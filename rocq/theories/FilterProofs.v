From Coq Require Import List ZArith Bool Lia Reals Lra.
From Verif Require Import Num FilterModel.
Import ListNotations.

(** ** Specification vocabulary: see FilterProps.v for the reading *)

(** [q] is no larger than [p] in at least one coordinate. *)
Definition some_coord_le (q p : list num) : Prop :=
  exists i x y, nth_error q i = Some x /\ nth_error p i = Some y /\ nle x y = true.
(** [q] is no larger than [p] in every coordinate. *)
Definition all_coord_le (q p : list num) : Prop :=
  forall i x y, nth_error q i = Some x -> nth_error p i = Some y -> nle x y = true.

(** The points added since the last [Clear], oldest first. *)
Definition added (ops : list fop) : list (list num) :=
  fold_left (fun h o => match o with Add v _ => h ++ [v] | Clear => [] end) ops [].

Definition no_nan (v : list num) : Prop := forall x, In x v -> nnan x = false.
Definition op_wf (dim : nat) (o : fop) : Prop :=
  match o with Add v _ => length v = dim /\ no_nan v | Clear => True end.

Lemma coords_acceptable_spec : forall e q, length q = length e ->
  exists b, coords_acceptable e q = Some b /\ (b = true <-> some_coord_le q e).
Proof.
  induction e as [|x e IH]; intros q Hl; destruct q as [|v q]; try discriminate.
  - exists false; split; [reflexivity|]. split; [discriminate|].
    intros (i & a & b & H & _). destruct i; discriminate.
  - simpl. destruct (nle v x) eqn:E.
    + exists true; split; [reflexivity|]. split; [|reflexivity]. intros _.
      exists 0%nat, v, x; auto.
    + destruct (IH q) as (b & Hb & Hi); [simpl in Hl; lia|].
      exists b; split; [exact Hb|]. rewrite Hi. split.
      * intros (i & a & c & H1 & H2 & H3). exists (S i), a, c; auto.
      * intros (i & a & c & H1 & H2 & H3). destruct i as [|i].
        -- simpl in H1, H2. congruence.
        -- exists i, a, c; auto.
Qed.

Lemma coords_dominated_spec : forall e q, length q = length e -> no_nan q -> no_nan e ->
  exists b, coords_dominated e q = Some b /\ (b = true <-> all_coord_le q e).
Proof.
  induction e as [|x e IH]; intros q Hl Nq Ne; destruct q as [|v q]; try discriminate.
  - exists true; split; [reflexivity|]. split; [|reflexivity].
    intros _ i a b H. destruct i; discriminate.
  - assert (Nv : nnan v = false) by (apply Nq; left; reflexivity).
    assert (Nx : nnan x = false) by (apply Ne; left; reflexivity).
    simpl. unfold ngt. destruct (nlt x v) eqn:E.
    + exists false; split; [reflexivity|]. split; [discriminate|].
      intros H. specialize (H 0%nat v x eq_refl eq_refl).
      apply nle_iff in H. apply nlt_iff in E. lra.
    + destruct (IH q) as (b & Hb & Hi); [simpl in Hl; lia| intros a Ha; apply Nq; right; exact Ha
        | intros a Ha; apply Ne; right; exact Ha|].
      exists b; split; [exact Hb|]. rewrite Hi. split.
      * intros H i a c H1 H2. destruct i as [|i].
        -- simpl in H1, H2. inversion H1; inversion H2; subst.
           apply nle_iff. repeat split; auto. apply nlt_false in E; auto.
        -- apply (H i); auto.
      * intros H i a c H1 H2. apply (H (S i)); auto.
Qed.

Lemma all_le_trans_some q p e : all_coord_le p e -> length p = length e -> some_coord_le q p -> some_coord_le q e.
Proof.
  intros A L (i & x & y & H1 & H2 & H3).
  destruct (nth_error e i) as [z|] eqn:E.
  - exists i, x, z. repeat split; auto.
    specialize (A i y z H2 E). apply nle_iff in A. apply nle_iff in H3. apply nle_iff. intuition lra.
  - exfalso. apply nth_error_None in E.
    assert (nth_error p i <> None) by congruence. apply nth_error_Some in H. lia.
Qed.

Definition fwf (dim : nat) (f : filter) : Prop :=
  forall e, In e f -> length (evals e) = dim /\ no_nan (evals e).

Lemma filter_acceptable_spec dim f q : fwf dim f -> length q = dim ->
  exists b, filter_acceptable f q = Some b /\ (b = true <-> forall e, In e f -> some_coord_le q (evals e)).
Proof.
  induction f as [|e f IH]; intros W L.
  - exists true; split; [reflexivity|]. split; [intros _ e []|reflexivity].
  - simpl. destruct (W e) as [Le Ne]; [left; reflexivity|].
    destruct (coords_acceptable_spec (evals e) q) as (b & Hb & Hi); [lia|].
    unfold entry_acceptable. rewrite Hb. destruct b.
    + destruct IH as (b & Hb2 & Hi2); [intros e' H'; apply W; right; exact H'|exact L|].
      exists b; split; [exact Hb2|]. rewrite Hi2. split.
      * intros H e' [<-|H']; [apply Hi; reflexivity|apply H; exact H'].
      * intros H e' H'. apply H; right; exact H'.
    + exists false; split; [reflexivity|]. split; [discriminate|].
      intros H. apply Hi. apply H. left; reflexivity.
Qed.

Lemma remove_dominated_spec dim f v : fwf dim f -> length v = dim -> no_nan v ->
  exists r, remove_dominated f v = Some r /\
    (forall e, In e r <-> In e f /\ ~ all_coord_le v (evals e)) /\
    (forall (P : entry -> entry -> Prop), ForallOrdPairs P f -> ForallOrdPairs P r).
Proof.
  induction f as [|e f IH]; intros W L N.
  - exists []; split; [reflexivity|]. split; [|intros; constructor]. simpl; tauto.
  - simpl. destruct (W e) as [Le Ne]; [left; reflexivity|].
    destruct (coords_dominated_spec (evals e) v) as (b & Hb & Hi); [lia|exact N|exact Ne|].
    unfold entry_dominated. rewrite Hb.
    destruct IH as (r & Hr & Hin & HP); [intros e' H'; apply W; right; exact H'|exact L|exact N|].
    rewrite Hr. exists (if b then r else e :: r); split; [reflexivity|]. split.
    + intros e'. destruct b; simpl.
      * rewrite Hin. split; [tauto|]. intros [[<-|H] H2]; [|tauto]. exfalso; apply H2; apply Hi; reflexivity.
      * rewrite Hin. split.
        -- intros [<-|H]; [|tauto]. split; [left; reflexivity|]. intro H. apply Hi in H. discriminate.
        -- intros [[<-|H] H2]; tauto.
    + intros P H. inversion H as [|? ? H1 H2]; subst. destruct b; [auto|].
      constructor; [|auto]. rewrite Forall_forall in *. intros y Hy. apply H1. apply Hin; exact Hy.
Qed.

(** [h] is the history: entries are history points, and each history point is represented by a
    stored entry at least as strict. *)
Record finv (dim : nat) (f : filter) (h : list (list num)) : Prop := {
  fi_wf : fwf dim f;
  fi_hwf : forall p, In p h -> length p = dim /\ no_nan p;
  fi_sub : forall e, In e f -> In (evals e) h;
  fi_dom : forall p, In p h -> exists e, In e f /\ all_coord_le (evals e) p
}.

Lemma all_coord_le_refl p : no_nan p -> all_coord_le p p.
Proof.
  intros N i x y H1 H2. rewrite H1 in H2. inversion H2; subst.
  apply nle_iff. assert (nnan y = false) by (apply N; eapply nth_error_In; eassumption).
  repeat split; auto; lra.
Qed.
Lemma all_coord_le_trans dim p q r : length p = dim -> length q = dim -> length r = dim ->
  all_coord_le p q -> all_coord_le q r -> all_coord_le p r.
Proof.
  intros Lp Lq Lr H1 H2 i x z Hx Hz.
  destruct (nth_error q i) as [y|] eqn:E.
  - specialize (H1 i x y Hx E). specialize (H2 i y z E Hz).
    apply nle_iff in H1. apply nle_iff in H2. apply nle_iff. intuition lra.
  - exfalso. apply nth_error_None in E. assert (nth_error p i <> None) by congruence.
    apply nth_error_Some in H. lia.
Qed.

Lemma all_coord_le_dec e v : length v = length e -> no_nan v -> no_nan e ->
  all_coord_le v e \/ ~ all_coord_le v e.
Proof.
  intros L N1 N2. destruct (coords_dominated_spec e v L N1 N2) as (b & _ & H).
  destruct b; [left; apply H; reflexivity|right; intro X; apply H in X; discriminate].
Qed.

Lemma fstep_inv dim f h o : finv dim f h -> op_wf dim o ->
  exists f', fstep (Some f) o = Some f' /\
    finv dim f' (match o with Add v _ => h ++ [v] | Clear => [] end).
Proof.
  intros I W. destruct o as [v it|].
  - destruct W as [L N]. simpl. unfold filter_add.
    destruct (remove_dominated_spec dim f v (fi_wf _ _ _ I) L N) as (r & Hr & Hin & _).
    rewrite Hr. eexists; split; [reflexivity|]. constructor.
    + intros e He. apply in_app_or in He. destruct He as [He|[<-|[]]].
      * apply (fi_wf _ _ _ I). apply Hin; exact He.
      * simpl; auto.
    + intros p Hp. apply in_app_or in Hp. destruct Hp as [Hp|[<-|[]]]; [apply (fi_hwf _ _ _ I); exact Hp|auto].
    + intros e He. apply in_or_app. apply in_app_or in He. destruct He as [He|[<-|[]]].
      * left. apply (fi_sub _ _ _ I). apply Hin; exact He.
      * right; left; reflexivity.
    + intros p Hp. apply in_app_or in Hp. destruct Hp as [Hp|[<-|[]]].
      * destruct (fi_dom _ _ _ I p Hp) as (e & He & Hle).
        destruct (fi_wf _ _ _ I e He) as [Le Ne].
        destruct (fi_hwf _ _ _ I p Hp) as [Lp Np].
        destruct (all_coord_le_dec (evals e) v) as [D|D]; [lia|exact N|exact Ne| |].
        -- exists (mkEntry v it). split; [apply in_or_app; right; left; reflexivity|].
           simpl. apply all_coord_le_trans with dim (evals e); auto.
        -- exists e. split; [apply in_or_app; left; apply Hin; auto|exact Hle].
      * exists (mkEntry v it). split; [apply in_or_app; right; left; reflexivity|].
        simpl. apply all_coord_le_refl; exact N.
  - simpl. exists []. split; [reflexivity|]. constructor; simpl; intros ? [].
Qed.

Lemma frun_inv_gen dim ops : Forall (op_wf dim) ops -> forall f h, finv dim f h ->
  exists f', fold_left fstep ops (Some f) = Some f' /\
   finv dim f' (fold_left (fun h o => match o with Add v _ => h ++ [v] | Clear => [] end) ops h).
Proof.
  induction ops as [|o ops IH]; intros W f h I.
  - exists f; split; [reflexivity|exact I].
  - inversion W as [|? ? W1 W2]; subst. cbn [fold_left].
    destruct (fstep_inv dim f h o I W1) as (f' & -> & I'). apply IH; auto.
Qed.

Lemma frun_inv dim ops : Forall (op_wf dim) ops -> exists f, frun ops = Some f /\ finv dim f (added ops).
Proof.
  intros W. apply frun_inv_gen; [exact W|]. constructor; intros ? [].
Qed.

Lemma filter_acceptable_history dim ops q : Forall (op_wf dim) ops -> length q = dim ->
  exists f b, frun ops = Some f /\ filter_acceptable f q = Some b /\
    (b = true <-> forall p, In p (added ops) -> some_coord_le q p).
Proof.
  intros W L. destruct (frun_inv dim ops W) as (f & Hf & I).
  destruct (filter_acceptable_spec dim f q (fi_wf _ _ _ I) L) as (b & Hb & Hi).
  exists f, b; repeat split; auto.
  - intros B p Hp. destruct (fi_dom _ _ _ I p Hp) as (e & He & Hle).
    apply all_le_trans_some with (evals e); auto.
    + destruct (fi_wf _ _ _ I e He). destruct (fi_hwf _ _ _ I p Hp). lia.
    + apply Hi; auto.
  - intros H. apply Hi. intros e He. apply H. apply (fi_sub _ _ _ I e He).
Qed.

Lemma added_app ops1 ops2 : (forall o, In o ops2 -> o <> Clear) ->
  forall p, In p (added ops1) -> In p (added (ops1 ++ ops2)).
Proof.
  intros H. unfold added. rewrite fold_left_app.
  generalize (fold_left (fun h o => match o with Add v _ => h ++ [v] | Clear => [] end) ops1 []).
  revert H. induction ops2 as [|o ops2 IH]; intros H h p Hp; [exact Hp|].
  cbn [fold_left]. apply IH; [intros o' Ho'; apply H; right; exact Ho'|].
  destruct o as [v i|]; [apply in_or_app; left; exact Hp|exfalso; apply (H Clear); [left; reflexivity|reflexivity]].
Qed.

Lemma some_coord_le_mono dim q q' p : length q = dim -> length q' = dim ->
  all_coord_le q q' -> some_coord_le q' p -> some_coord_le q p.
Proof.
  intros L L' A (i & x & y & H1 & H2 & H3).
  destruct (nth_error q i) as [z|] eqn:E.
  - exists i, z, y. repeat split; auto. specialize (A i z x E H1).
    apply nle_iff in A. apply nle_iff in H3. apply nle_iff. intuition lra.
  - exfalso. apply nth_error_None in E. assert (nth_error q' i <> None) by congruence.
    apply nth_error_Some in H. lia.
Qed.

Lemma some_coord_le_dec q p : length q = length p -> some_coord_le q p \/ ~ some_coord_le q p.
Proof.
  intros L. destruct (coords_acceptable_spec p q L) as (b & _ & H).
  destruct b; [left; apply H; reflexivity|right; intro X; apply H in X; discriminate].
Qed.

Lemma rejection_permanent dim ops1 ops2 q q' f1 f2 :
  Forall (op_wf dim) ops1 -> Forall (op_wf dim) ops2 ->
  (forall o, In o ops2 -> o <> Clear) ->
  length q = dim -> length q' = dim -> all_coord_le q q' ->
  frun ops1 = Some f1 -> frun (ops1 ++ ops2) = Some f2 ->
  filter_acceptable f1 q = Some false -> filter_acceptable f2 q' = Some false.
Proof.
  intros W1 W2 NC L L' A R1 R2 Rej.
  destruct (filter_acceptable_history dim ops1 q W1 L) as (f1' & b1 & E1 & Hb1 & H1).
  rewrite R1 in E1; inversion E1; subst f1'. rewrite Rej in Hb1; inversion Hb1; subst b1.
  destruct (filter_acceptable_history dim (ops1 ++ ops2) q') as (f2' & b2 & E2 & Hb2 & H2).
  { apply Forall_app; auto. } { exact L'. }
  rewrite R2 in E2; inversion E2; subst f2'. rewrite Hb2. destruct b2; [|reflexivity].
  exfalso. assert (X : false = true); [|discriminate].
  apply H1. intros p Hp. apply some_coord_le_mono with dim q'; auto.
  apply H2; auto. apply added_app; auto.
Qed.

(** ** Entries stay mutually non-dominated when only acceptable points are added *)
Definition later_ok (a b : entry) : Prop :=
  some_coord_le (evals b) (evals a) /\ ~ all_coord_le (evals b) (evals a).

Fixpoint adds_acceptable (f : filter) (ops : list fop) : Prop :=
  match ops with
  | [] => True
  | Add v i :: r => filter_acceptable f v = Some true /\
      match filter_add f v i with Some f' => adds_acceptable f' r | None => False end
  | Clear :: r => adds_acceptable [] r
  end.

Lemma FOP_snoc {A} (P : A -> A -> Prop) l x : ForallOrdPairs P l -> (forall y, In y l -> P y x) ->
  ForallOrdPairs P (l ++ [x]).
Proof.
  induction 1 as [|a l H1 H2 IH]; intros Hx; simpl; [repeat constructor|].
  constructor.
  - apply Forall_app. split; [exact H1|]. constructor; [|constructor]. apply Hx; left; reflexivity.
  - apply IH. intros y Hy; apply Hx; right; exact Hy.
Qed.

Lemma filter_antichain_gen dim ops : Forall (op_wf dim) ops ->
  forall f h, finv dim f h -> ForallOrdPairs later_ok f -> adds_acceptable f ops ->
  forall f', fold_left fstep ops (Some f) = Some f' -> ForallOrdPairs later_ok f'.
Proof.
  induction ops as [|o ops IH]; intros W f h I P A f' R.
  - inversion R; subst; exact P.
  - inversion W as [|? ? W1 W2]; subst. cbn [fold_left] in R.
    destruct (fstep_inv dim f h o I W1) as (g & Hg & I').
    rewrite Hg in R. destruct o as [v it|].
    + cbn [adds_acceptable] in A. destruct A as [Ha Hn]. cbn [fstep] in Hg. rewrite Hg in Hn.
      eapply IH; [exact W2|exact I'| |exact Hn|exact R].
      destruct W1 as [L N]. unfold filter_add in Hg.
      destruct (remove_dominated_spec dim f v (fi_wf _ _ _ I) L N) as (r & Hr & Hin & HP).
      rewrite Hr in Hg. inversion Hg; subst g. apply FOP_snoc; [apply HP; exact P|].
      intros e He. apply Hin in He. destruct He as [He Hd]. split; [|exact Hd]. simpl.
      destruct (filter_acceptable_spec dim f v (fi_wf _ _ _ I) L) as (b & Hb & Hi).
      rewrite Ha in Hb. inversion Hb; subst b. apply Hi; auto.
    + cbn [fstep filter_clear] in Hg. unfold filter_clear in Hg. inversion Hg; subst g.
      eapply IH; [exact W2|exact I'|constructor|exact A|exact R].
Qed.

Lemma filter_antichain dim ops f : Forall (op_wf dim) ops -> adds_acceptable [] ops ->
  frun ops = Some f -> ForallOrdPairs later_ok f.
Proof.
  intros W A R. apply (filter_antichain_gen dim ops W [] []); auto.
  - constructor; intros ? [].
  - constructor.
Qed.
