(** Products with triplet, diagonal, expansion and multi-vector matrices. *)
From Coq Require Import List Bool Arith Reals Lia Lra.
From Flocq Require Import Raux.
From Verif Require Import Num VecModel VecSpec VecProofs VecLift VecReal VecRed VecFresh ExpModel ExpSpec ExpProofs MatModel MatSpec MatVec.
Import ListNotations.
Local Open Scope R_scope.

Lemma sum_to_head n f : sum_to (S n) f = f 0%nat + sum_to n (fun i => f (S i)).
Proof. induction n; simpl in *; [ring|]. rewrite IHn. ring. Qed.
Lemma loop_ind {A} n (f : nat -> A -> option A) (P : nat -> A -> Prop) a : P 0%nat a ->
  (forall k b, (k < n)%nat -> P k b -> exists b', f k b = Some b' /\ P (S k) b') -> exists b, loop n f a = Some b /\ P n b.
Proof.
  intros H0 HS. induction n as [|n IH]; [exists a; auto|]. destruct IH as (b & E & H); [intros; apply HS; auto; lia|].
  simpl. rewrite E. apply HS; auto.
Qed.
Lemma if_and (b c : bool) (x : R) : (if b && c then x else 0) = if b then (if c then x else 0) else 0.
Proof. destruct b, c; reflexivity. Qed.
Lemma sum_pick n (c : nat) (f : nat -> R) : (1 <= c <= n)%nat -> sum_to n (fun j => if (c =? S j)%nat then f j else 0) = f (Nat.pred c).
Proof.
  intros H. rewrite (@sum_to_one n _ (Nat.pred c)).
  - destruct (Nat.eqb_spec c (S (Nat.pred c))); [reflexivity|lia].
  - lia.
  - intros i _ N. destruct (Nat.eqb_spec c (S i)); [lia|reflexivity].
Qed.

Section Leaf.
Variable lg : R -> R.
Notation OR := (R_ops lg).
Variables (junk : nat -> list R) (jscal : R).
Hypothesis Hj : forall n, length (junk n) = n.
Notation tgt := (target OR).

Lemma vrep_dense n f v : vrep (SD n) f v -> exists d, v = Dense n d /\ dok n d /\ forall i, (i < n)%nat -> nth i (dden n d) 0 = f i.
Proof.
  intros [A B]. inversion A as [? d Hd|]; subst. exists d. split; [reflexivity|]. split; [exact Hd|]. intros i Hi. cbn [contents] in B. rewrite B. apply nth_map_seq; auto.
Qed.
Lemma dense_vrep n f d : dok n d -> (forall i, (i < n)%nat -> nth i (dden n d) 0 = f i) -> vrep (SD n) f (Dense n d).
Proof. intros H E. apply vrep_fun; [constructor; auto|]. exact E. Qed.
Lemma tgt_dense n v : tgt (SD n) v -> exists d, v = Dense n d /\ dtg lg n d.
Proof. intros H. inversion H; subst. eauto. Qed.

Lemma values_start n f d : vrep (SD n) f (Dense n d) ->
  length (vlist (d_values n (junk n) d)) = n /\ forall i, (i < n)%nat -> nth i (vlist (d_values n (junk n) d)) 0 = f i.
Proof.
  intros H. apply vrep_dense in H. destruct H as (d' & E & Hd & V). injection E as <-.
  destruct (@values_ok R OR n (junk n) d Hd) as [L1 L2]. split; [exact L1|]. intros i Hi. cbn [R_ops t0] in L2. rewrite L2. auto.
Qed.
Lemma values_finish n f w (l : list R) : length l = n -> (forall i, (i < n)%nat -> nth i l 0 = f i) -> vrep (SD n) f (Dense n (with_values w l)).
Proof. intros L E. destruct (@with_ok R n w l L) as [A B]. apply dense_vrep; [exact A|]. rewrite B. exact E. Qed.
(** the array of a target that may be new *)
Lemma values_tgt n d : dtg lg n d -> length (vlist (d_values n (junk n) d)) = n.
Proof.
  intros [H|[j ->]]; [apply (@values_ok R OR n (junk n) d H)|]. unfold d_values, d_new. destruct n; cbn; [reflexivity|]. apply Hj.
Qed.

(** ** array access *)
Lemma aget_ok l i : (i < length l)%nat -> aget l i = Some (nth i l 0).
Proof. intros. unfold aget. apply nth_error_nth'. auto. Qed.
Lemma get1_ok l i : (1 <= i <= length l)%nat -> get1 l i = Some (nth (Nat.pred i) l 0).
Proof. destruct i; intros; [lia|]. simpl. apply aget_ok. lia. Qed.
Lemma aput_ok (l : list R) i a : (i < length l)%nat -> aput l i a = Some (upd i a l).
Proof. intros H. unfold aput. apply Nat.ltb_lt in H. rewrite H. reflexivity. Qed.
Lemma add1_ok l i a : (1 <= i <= length l)%nat ->
  exists l', add1 OR l i a = Some l' /\ length l' = length l /\ forall k, nth k l' 0 = nth k l 0 + if (i =? S k)%nat then a else 0.
Proof.
  destruct i as [|i]; intros H; [lia|]. unfold add1. rewrite aget_ok by lia. cbn [obind]. rewrite aput_ok by lia.
  eexists. split; [reflexivity|]. split; [apply upd_length|]. intros k. cbn [R_ops tadd].
  destruct (Nat.eqb_spec (S i) (S k)) as [E|E].
  - injection E as ->. rewrite nth_upd_same by lia. reflexivity.
  - rewrite nth_upd_other by lia. ring.
Qed.

(** ** GenTMatrix *)
Definition gcontr (ir jc : list nat) (vals : list R) (fx : nat -> R) (i : nat) : R :=
  sum_to (length vals) (fun k => if (nth k ir 0 =? S i)%nat then nth k vals 0 * fx (Nat.pred (nth k jc 0%nat)) else 0).
Lemma in_range_cons n a l : in_range n (a :: l) -> (1 <= a <= n)%nat /\ in_range n l.
Proof. intros H. split; [apply H; left; auto|intros k Hk; apply H; right; auto]. Qed.
Lemma gent_hom_ok a : forall vals ir y, length ir = length vals -> in_range (length y) ir ->
  exists y', gent_hom OR a ir vals y = Some y' /\ length y' = length y /\
    forall i, nth i y' 0 = nth i y 0 + a * gcontr ir ir vals (fun _ => 1) i.
Proof.
  induction vals as [|v vals IH]; intros [|r ir] y L Rg; try discriminate.
  - exists y. unfold gcontr. simpl. repeat split; auto. intros; ring.
  - apply in_range_cons in Rg. destruct Rg as [R1 R2]. destruct (add1_ok y r (a * v) R1) as (l1 & E1 & L1 & N1).
    destruct (IH ir l1) as (l2 & E2 & L2 & N2); [simpl in L; lia|rewrite L1; auto|].
    exists l2. cbn [gent_hom]. cbn [R_ops tmul]. rewrite E1. cbn [obind]. split; [exact E2|]. split; [congruence|]. intros i.
    rewrite N2, N1. unfold gcontr. cbn [length]. rewrite sum_to_head. cbn [nth]. destruct (r =? S i)%nat; ring.
Qed.
Lemma gent_arr_ok a x : forall vals ir jc y, length ir = length vals -> length jc = length vals -> in_range (length y) ir -> in_range (length x) jc ->
  exists y', gent_arr OR a ir jc vals x y = Some y' /\ length y' = length y /\
    forall i, nth i y' 0 = nth i y 0 + a * gcontr ir jc vals (fun j => nth j x 0) i.
Proof.
  induction vals as [|v vals IH]; intros [|r ir] [|c jc] y L L' Rg Rg'; try discriminate.
  - exists y. unfold gcontr. simpl. repeat split; auto. intros; ring.
  - apply in_range_cons in Rg. destruct Rg as [R1 R2]. apply in_range_cons in Rg'. destruct Rg' as [S1 S2].
    destruct (add1_ok y r (a * v * nth (Nat.pred c) x 0) R1) as (l1 & E1 & L1 & N1).
    destruct (IH ir jc l1) as (l2 & E2 & L2 & N2); [simpl in L; lia|simpl in L'; lia|rewrite L1; auto|auto|].
    exists l2. cbn [gent_arr]. rewrite get1_ok by auto. cbn [obind]. cbn [R_ops tmul]. rewrite E1. cbn [obind]. split; [exact E2|]. split; [congruence|]. intros i.
    rewrite N2, N1. unfold gcontr. cbn [length]. rewrite sum_to_head. cbn [nth]. destruct (r =? S i)%nat; ring.
Qed.
Lemma gcontr_ext n ir jc vals f g i : in_range n jc -> length jc = length vals -> (forall j, (j < n)%nat -> f j = g j) -> gcontr ir jc vals f i = gcontr ir jc vals g i.
Proof.
  intros H L E. unfold gcontr. apply sum_to_ext. intros k Hk. rewrite E; [reflexivity|].
  assert (K : (1 <= nth k jc 0 <= n)%nat) by (apply H, nth_In; lia). lia.
Qed.
(** contributions are the product with the denoted matrix *)
Lemma gcontr_den nr nc ir jc vals f i n : in_range n jc -> length jc = length vals ->
  gcontr ir jc vals f i = sum_to n (fun j => den (GenT nr nc ir jc vals) i j * f j).
Proof.
  intros H L. unfold gcontr. cbn [den].
  rewrite (@sum_to_ext n _ (fun j => sum_to (length vals) (fun k => if (nth k ir 0 =? S i)%nat then if (nth k jc 0 =? S j)%nat then nth k vals 0 * f j else 0 else 0))).
  - rewrite sum_to_swap. apply sum_to_ext. intros k Hk. destruct (nth k ir 0 =? S i)%nat.
    + rewrite (sum_pick n (nth k jc 0%nat) (fun j => nth k vals 0 * f j)); [reflexivity|]. apply H, nth_In; lia.
    + symmetry. apply sum_to_zero. auto.
  - intros j _. rewrite Rmult_comm, <- sum_to_scal. apply sum_to_ext. intros k _. destruct (nth k ir 0 =? S i)%nat, (nth k jc 0 =? S j)%nat; simpl; ring.
Qed.
Lemma gcontr_hom n ir jc vals s i : in_range n jc -> length jc = length vals -> gcontr ir jc vals (fun _ => s) i = s * gcontr ir ir vals (fun _ => 1) i.
Proof. intros H L. unfold gcontr. rewrite <- sum_to_scal. apply sum_to_ext. intros k _. destruct (nth k ir 0 =? S i)%nat; ring. Qed.

Lemma gent_mult_ok ir jc vals alpha beta x y fx fy sx sy : length ir = length vals -> length jc = length vals ->
  in_range (sdim sy) ir -> in_range (sdim sx) jc -> (vals <> [] -> sy = SD (sdim sy) /\ sx = SD (sdim sx)) ->
  vrep sx fx x -> tgt sy y -> (beta <> 0 -> vrep sy fy y) ->
  exists y', gent_mult OR junk ir jc vals alpha x beta y = Some y' /\ vrep sy (fun i => beta * fy i + alpha * gcontr ir jc vals fx i) y'.
Proof.
  intros L L' Rg Rg' SH Hx Ht Hy. unfold gent_mult. pose proof (yscale_r lg beta sy fy y Ht Hy) as K.
  destruct vals as [|v vals].
  - exists (yscale OR beta y). split; [reflexivity|]. eapply vrep_ext; [|exact K]. intros i _. unfold gcontr. simpl. ring.
  - destruct (SH ltac:(discriminate)) as [E1 E2]. remember (sdim sx) as nx. remember (sdim sy) as ny. subst sx sy. clear Heqnx Heqny.
    apply vrep_dense in Hx. destruct Hx as (dx & -> & Dx & Vx).
    pose proof K as K0. apply vrep_dense in K0. destruct K0 as (dy & EY & _ & _). rewrite EY in *.
    destruct (values_start _ _ _ K) as [LW VW]. set (w := d_values ny (junk ny) dy) in *.
    assert (RES : exists l, (if hom dx then gent_hom OR (tmul OR alpha (scal dx)) ir (v :: vals) (vlist w)
                             else gent_arr OR alpha ir jc (v :: vals) (vlist dx) (vlist w)) = Some l /\ length l = ny /\
                  forall i, (i < ny)%nat -> nth i l 0 = beta * fy i + alpha * gcontr ir jc (v :: vals) fx i).
    { destruct (hom dx) eqn:HX.
      - destruct (gent_hom_ok (tmul OR alpha (scal dx)) (v :: vals) ir (vlist w)) as (l & E & LL & N); [auto|rewrite LW; auto|].
        exists l. split; [exact E|]. split; [congruence|]. intros i Hi. rewrite N, VW by auto. cbn [R_ops tmul].
        rewrite (gcontr_ext nx _ _ _ fx (fun _ => scal dx)); auto.
        + rewrite (gcontr_hom nx ir jc (v :: vals) (scal dx)) by auto. ring.
        + intros j Hj'. rewrite <- Vx by auto. apply (hom_nthR lg dx HX Hj').
      - assert (EX : dden nx dx = vlist dx) by (unfold dden; rewrite HX; reflexivity).
        assert (LX : length (vlist dx) = nx) by (rewrite <- EX; apply dden_length; auto).
        destruct (gent_arr_ok alpha (vlist dx) (v :: vals) ir jc (vlist w)) as (l & E & LL & N); auto; [rewrite LW; auto|rewrite LX; auto|].
        exists l. split; [exact E|]. split; [congruence|]. intros i Hi. rewrite N, VW by auto.
        rewrite (gcontr_ext nx _ _ _ _ fx); auto. intros j Hj'. rewrite <- EX. auto. }
    destruct RES as (l & E & LL & N). rewrite E. cbn [obind]. eexists. split; [reflexivity|]. apply values_finish; auto.
Qed.

(** ** SymTMatrix *)
Definition scontr (ir jc : list nat) (vals : list R) (fx : nat -> R) (i : nat) : R :=
  sum_to (length vals) (fun k => (if (nth k ir 0 =? S i)%nat then nth k vals 0 * fx (Nat.pred (nth k jc 0%nat)) else 0)
    + (if negb (nth k ir 0 =? nth k jc 0%nat)%nat && (nth k jc 0 =? S i)%nat then nth k vals 0 * fx (Nat.pred (nth k ir 0%nat)) else 0)).
Lemma symt_hom_ok a : forall vals ir jc y, length ir = length vals -> length jc = length vals -> in_range (length y) ir -> in_range (length y) jc ->
  exists y', symt_hom OR a ir jc vals y = Some y' /\ length y' = length y /\
    forall i, nth i y' 0 = nth i y 0 + a * scontr ir jc vals (fun _ => 1) i.
Proof.
  induction vals as [|v vals IH]; intros [|r ir] [|c jc] y L L' Rg Rg'; try discriminate.
  - exists y. unfold scontr. simpl. repeat split; auto. intros; ring.
  - apply in_range_cons in Rg. destruct Rg as [R1 R2]. apply in_range_cons in Rg'. destruct Rg' as [S1 S2].
    destruct (add1_ok y r (a * v) R1) as (l1 & E1 & L1 & N1).
    assert (ST : exists l2, (if negb (r =? c)%nat then add1 OR l1 c (a * v) else Some l1) = Some l2 /\ length l2 = length y /\
                 forall k, nth k l2 0 = nth k l1 0 + if negb (r =? c)%nat && (c =? S k)%nat then a * v else 0).
    { destruct (negb (r =? c)%nat).
      - destruct (add1_ok l1 c (a * v)) as (l2 & E2 & L2 & N2); [rewrite L1; auto|]. exists l2. split; [exact E2|]. split; [congruence|]. exact N2.
      - exists l1. repeat split; auto. intros; simpl; ring. }
    destruct ST as (l2 & E2 & L2 & N2).
    destruct (IH ir jc l2) as (l3 & E3 & L3 & N3); [simpl in L; lia|simpl in L'; lia|rewrite L2; auto|rewrite L2; auto|].
    exists l3. cbn [symt_hom]. cbn [R_ops tmul]. rewrite E1. cbn [obind]. rewrite E2. cbn [obind]. split; [exact E3|]. split; [congruence|]. intros i.
    rewrite N3, N2, N1. unfold scontr. cbn [length]. rewrite sum_to_head. cbn [nth].
    destruct (r =? S i)%nat, (negb (r =? c)%nat && (c =? S i)%nat); ring.
Qed.
Lemma symt_arr_ok a x : forall vals ir jc y, length ir = length vals -> length jc = length vals -> in_range (length y) ir -> in_range (length y) jc -> length x = length y ->
  exists y', symt_arr OR a ir jc vals x y = Some y' /\ length y' = length y /\
    forall i, nth i y' 0 = nth i y 0 + a * scontr ir jc vals (fun j => nth j x 0) i.
Proof.
  induction vals as [|v vals IH]; intros [|r ir] [|c jc] y L L' Rg Rg' LX; try discriminate.
  - exists y. unfold scontr. simpl. repeat split; auto. intros; ring.
  - apply in_range_cons in Rg. destruct Rg as [R1 R2]. apply in_range_cons in Rg'. destruct Rg' as [S1 S2].
    destruct (add1_ok y r (a * v * nth (Nat.pred c) x 0) R1) as (l1 & E1 & L1 & N1).
    assert (ST : exists l2, (if negb (r =? c)%nat then obind (get1 x r) (fun xi => add1 OR l1 c (a * v * xi)) else Some l1) = Some l2 /\ length l2 = length y /\
                 forall k, nth k l2 0 = nth k l1 0 + if negb (r =? c)%nat && (c =? S k)%nat then a * v * nth (Nat.pred r) x 0 else 0).
    { destruct (negb (r =? c)%nat).
      - rewrite get1_ok by lia. cbn [obind]. destruct (add1_ok l1 c (a * v * nth (Nat.pred r) x 0)) as (l2 & E2 & L2 & N2); [rewrite L1; auto|]. exists l2. split; [exact E2|]. split; [congruence|]. exact N2.
      - exists l1. repeat split; auto. intros; simpl; ring. }
    destruct ST as (l2 & E2 & L2 & N2).
    destruct (IH ir jc l2) as (l3 & E3 & L3 & N3); [simpl in L; lia|simpl in L'; lia|rewrite L2; auto|rewrite L2; auto|congruence|].
    exists l3. cbn [symt_arr]. rewrite get1_ok by lia. cbn [obind]. cbn [R_ops tmul] in *. rewrite E1. cbn [obind]. rewrite E2. cbn [obind]. split; [exact E3|]. split; [congruence|]. intros i.
    rewrite N3, N2, N1. unfold scontr. cbn [length]. rewrite sum_to_head. cbn [nth].
    destruct (r =? S i)%nat, (negb (r =? c)%nat && (c =? S i)%nat); ring.
Qed.
Lemma scontr_ext n ir jc vals f g i : in_range n ir -> length ir = length vals -> in_range n jc -> length jc = length vals -> (forall j, (j < n)%nat -> f j = g j) -> scontr ir jc vals f i = scontr ir jc vals g i.
Proof.
  intros H1 L1 H L E. unfold scontr. apply sum_to_ext. intros k Hk.
  assert (K : (1 <= nth k jc 0 <= n)%nat) by (apply H, nth_In; lia). assert (K1 : (1 <= nth k ir 0 <= n)%nat) by (apply H1, nth_In; lia).
  rewrite !E by lia. reflexivity.
Qed.
Lemma scontr_den m ir jc vals f i n : in_range n ir -> length ir = length vals -> in_range n jc -> length jc = length vals ->
  scontr ir jc vals f i = sum_to n (fun j => den (SymT m ir jc vals) i j * f j).
Proof.
  intros H1 L1 H L. unfold scontr. cbn [den].
  rewrite (@sum_to_ext n _ (fun j => sum_to (length vals) (fun k => 
    (if (nth k jc 0 =? S j)%nat then if (nth k ir 0 =? S i)%nat then nth k vals 0 * f j else 0 else 0) +
    (if (nth k ir 0 =? S j)%nat then if negb (nth k ir 0 =? nth k jc 0%nat)%nat && (nth k jc 0 =? S i)%nat then nth k vals 0 * f j else 0 else 0)))).
  - rewrite sum_to_swap. apply sum_to_ext. intros k Hk. rewrite sum_to_plus.
    rewrite (sum_pick n (nth k jc 0%nat) (fun j => if (nth k ir 0 =? S i)%nat then nth k vals 0 * f j else 0)) by (apply H, nth_In; lia).
    rewrite (sum_pick n (nth k ir 0%nat) (fun j => if negb (nth k ir 0 =? nth k jc 0%nat)%nat && (nth k jc 0 =? S i)%nat then nth k vals 0 * f j else 0)) by (apply H1, nth_In; lia).
    reflexivity.
  - intros j _. rewrite Rmult_comm, <- sum_to_scal. apply sum_to_ext. intros k _.
    destruct (Nat.eqb_spec (nth k ir 0%nat) (nth k jc 0%nat)) as [E|E]; simpl.
    + rewrite <- E. destruct (nth k ir 0 =? S i)%nat, (nth k ir 0 =? S j)%nat; simpl; ring.
    + destruct (Nat.eqb_spec (nth k ir 0%nat) (S i)), (Nat.eqb_spec (nth k jc 0%nat) (S j)), (Nat.eqb_spec (nth k ir 0%nat) (S j)), (Nat.eqb_spec (nth k jc 0%nat) (S i)); simpl; try ring; exfalso; lia.
Qed.
Lemma symt_mult_ok ir jc vals alpha beta x y fx fy n : length ir = length vals -> length jc = length vals ->
  in_range n ir -> in_range n jc -> vrep (SD n) fx x -> tgt (SD n) y -> (beta <> 0 -> vrep (SD n) fy y) ->
  exists y', symt_mult OR junk ir jc vals alpha x beta y = Some y' /\ vrep (SD n) (fun i => beta * fy i + alpha * scontr ir jc vals fx i) y'.
Proof.
  intros L L' Rg Rg' Hx Ht Hy. unfold symt_mult. pose proof (yscale_r lg beta _ fy y Ht Hy) as K.
  apply vrep_dense in Hx. destruct Hx as (dx & -> & Dx & Vx).
  pose proof K as K0. apply vrep_dense in K0. destruct K0 as (dy & EY & _ & _). rewrite EY in *.
  destruct (values_start _ _ _ K) as [LW VW]. set (w := d_values n (junk n) dy) in *.
  assert (RES : exists l, (if hom dx then symt_hom OR (tmul OR alpha (scal dx)) ir jc vals (vlist w)
                             else symt_arr OR alpha ir jc vals (vlist dx) (vlist w)) = Some l /\ length l = n /\
                  forall i, (i < n)%nat -> nth i l 0 = beta * fy i + alpha * scontr ir jc vals fx i).
  { destruct (hom dx) eqn:HX.
    - destruct (symt_hom_ok (tmul OR alpha (scal dx)) vals ir jc (vlist w)) as (l & E & LL & N); auto; try (rewrite LW; auto).
      exists l. split; [exact E|]. split; [congruence|]. intros i Hi. rewrite N, VW by auto. cbn [R_ops tmul].
      rewrite (scontr_ext n _ _ _ fx (fun _ => scal dx)); auto.
      + unfold scontr. rewrite Rmult_assoc. rewrite <- (sum_to_scal _ (scal dx)). f_equal. f_equal. apply sum_to_ext. intros k _.
        destruct (nth k ir 0 =? S i)%nat, (negb (nth k ir 0 =? nth k jc 0%nat)%nat && (nth k jc 0 =? S i)%nat); ring.
      + intros j Hj'. rewrite <- Vx by auto. apply (hom_nthR lg dx HX Hj').
    - assert (EX : dden n dx = vlist dx) by (unfold dden; rewrite HX; reflexivity).
      assert (LX : length (vlist dx) = n) by (rewrite <- EX; apply dden_length; auto).
      destruct (symt_arr_ok alpha (vlist dx) vals ir jc (vlist w)) as (l & E & LL & N); auto; try (rewrite LW; auto).
      exists l. split; [exact E|]. split; [congruence|]. intros i Hi. rewrite N, VW by auto.
      rewrite (scontr_ext n _ _ _ _ fx); auto. intros j Hj'. rewrite <- EX. auto. }
  destruct RES as (l & E & LL & N). rewrite E. cbn [obind]. eexists. split; [reflexivity|]. apply values_finish; auto.
Qed.

(** ** ExpansionMatrix *)
Lemma exp_trans_ok nr pos alpha beta x y fx fy : positions nr pos -> vrep (SD nr) fx x -> tgt (SD (length pos)) y -> (beta <> 0 -> vrep (SD (length pos)) fy y) ->
  exists y', exp_mult OR junk nr pos true alpha x beta y = Some y' /\
    vrep (SD (length pos)) (fun i => beta * fy i + alpha * sum_to nr (fun j => entry pos j i * fx j)) y'.
Proof.
  intros P Hx Ht Hy. apply vrep_dense in Hx. destruct Hx as (dx & -> & Dx & Vx). apply tgt_dense in Ht. destruct Ht as (dy & -> & Ty).
  unfold exp_mult. eexists. split; [reflexivity|].
  assert (HY : beta <> 0 -> dok (length pos) dy) by (intros N; specialize (Hy N); apply vrep_dense in Hy; destruct Hy as (d & E & K & _); injection E as <-; exact K).
  destruct (@trans_real lg nr pos (junk (length pos)) alpha dx beta dy P Dx HY) as (A & B).
  apply dense_vrep; [exact A|]. intros i Hi. rewrite B by exact Hi.
  assert (TT : nth (nth i pos 0%nat) (dden nr dx) 0 = sum_to nr (fun j => entry pos j i * fx j)).
  { destruct P as [_ RG]. rewrite (@sum_to_one nr _ (nth i pos 0%nat)).
    - unfold entry. rewrite Nat.eqb_refl. rewrite <- Vx by (apply RG, nth_In; auto). ring.
    - apply RG, nth_In; auto.
    - intros k _ N. unfold entry. destruct (Nat.eqb_spec (nth i pos 0%nat) k); [congruence|ring]. }
  rewrite TT. f_equal. destruct (Req_dec beta 0) as [->|N]; [ring|]. f_equal. specialize (Hy N). apply vrep_dense in Hy.
  destruct Hy as (d & E & _ & V). injection E as <-. auto.
Qed.
Lemma exp_mult_ok nr pos alpha beta x y fx fy : positions nr pos -> vrep (SD (length pos)) fx x -> tgt (SD nr) y -> (beta <> 0 -> vrep (SD nr) fy y) ->
  exists y', exp_mult OR junk nr pos false alpha x beta y = Some y' /\
    vrep (SD nr) (fun i => beta * fy i + alpha * sum_to (length pos) (fun j => entry pos i j * fx j)) y'.
Proof.
  intros P Hx Ht Hy. apply vrep_dense in Hx. destruct Hx as (dx & -> & Dx & Vx). apply tgt_dense in Ht. destruct Ht as (dy & -> & Ty).
  unfold exp_mult. eexists. split; [reflexivity|].
  assert (HY : beta <> 0 -> dok nr dy) by (intros N; specialize (Hy N); apply vrep_dense in Hy; destruct Hy as (d & E & K & _); injection E as <-; exact K).
  destruct (@mult_real lg nr pos (junk nr) alpha dx beta dy P Dx HY) as (A & B & C).
  apply dense_vrep; [exact A|]. intros j Hj'.
  assert (FY : beta * nth j (dden nr dy) 0 = beta * fy j).
  { destruct (Req_dec beta 0) as [->|N]; [ring|]. f_equal. specialize (Hy N). apply vrep_dense in Hy. destruct Hy as (d & E & _ & V). injection E as <-. auto. }
  destruct (in_dec Nat.eq_dec j pos) as [I|N].
  - destruct (In_nth _ _ 0%nat I) as (i & Hi & E). subst j. rewrite B by auto. rewrite FY. f_equal. f_equal.
    rewrite (@sum_to_one _ _ i Hi).
    + unfold entry. rewrite Nat.eqb_refl, Vx by auto. ring.
    + intros k Hk N. unfold entry. destruct (Nat.eqb_spec (nth k pos 0%nat) (nth i pos 0%nat)) as [E|]; [|ring].
      destruct P as [ND _]. exfalso. apply N. apply (proj1 (NoDup_nth pos 0%nat) ND k i Hk Hi E).
  - rewrite C by auto. rewrite FY. rewrite sum_to_zero; [ring|]. intros k Hk. unfold entry.
    destruct (Nat.eqb_spec (nth k pos 0%nat) j) as [E|]; [|ring]. exfalso. apply N. rewrite <- E. apply nth_In; auto.
Qed.

(** ** DiagMatrix *)
Lemma diag_mult_ok s d alpha beta x y fx fy : vok s d -> vrep s fx x -> tgt s y -> (beta <> 0 -> vrep s fy y) ->
  vrep s (fun i => beta * fy i + alpha * (elem d i * fx i)) (diag_mult OR jscal d alpha x beta y).
Proof.
  intros Hd Hx Ht Hy. unfold diag_mult. pose proof (yscale_r lg beta s fy y Ht Hy) as K.
  eapply vrep_ext; [|apply axpy_r; [|exact K]].
  2: apply mul_r; [apply vrep_self; exact Hd|apply (copy_r lg); [exact Hx|]; apply tgt_makenew; eapply (vrep_tgt lg); exact K].
  intros i _. cbn beta. ring.
Qed.

(** ** MultiVectorMatrix *)
Lemma addone1 a s ex ev x v : vrep s ex x -> vrep s ev v -> vrep s (fun i => ev i + a * ex i) (v_addone OR junk a x (t1 OR) v).
Proof.
  intros A B. eapply vrep_ext; [|apply (addone_r lg junk Hj a 1 s ex ev x v A); [eapply vrep_tgt; exact B|intros _; exact B]].
  intros i _. cbn beta. ring.
Qed.
Lemma delem_ok n d i f : dok n d -> (forall i, (i < n)%nat -> nth i (dden n d) 0 = f i) -> (i < n)%nat -> delem d i = Some (f i).
Proof.
  intros H V Hi. unfold delem. destruct (hom d) eqn:E.
  - rewrite <- V by auto. rewrite (hom_nthR lg d E Hi). reflexivity.
  - assert (EX : dden n d = vlist d) by (unfold dden; rewrite E; reflexivity). pose proof (dden_length _ _ H) as L. rewrite EX in *.
    rewrite aget_ok by lia. rewrite V by auto. reflexivity.
Qed.
Lemma mv_mult_ok s k vecs alpha beta x y fx fy : (forall i, (i < k)%nat -> vok s (vecs i)) -> vrep (SD k) fx x -> tgt s y -> (beta <> 0 -> vrep s fy y) ->
  exists y', mv_mult OR junk k vecs alpha x beta y = Some y' /\ vrep s (fun i => beta * fy i + alpha * sum_to k (fun j => elem (vecs j) i * fx j)) y'.
Proof.
  intros Hv Hx Ht Hy. apply vrep_dense in Hx. destruct Hx as (dx & -> & Dx & Vx). unfold mv_mult.
  pose proof (yscale_r lg beta s fy y Ht Hy) as K.
  apply (loop_ind k _ (fun l y' => vrep s (fun i => beta * fy i + alpha * sum_to l (fun j => elem (vecs j) i * fx j)) y')).
  - eapply vrep_ext; [|exact K]. intros; simpl; ring.
  - intros l b Hl Hb. rewrite (delem_ok k dx l fx) by auto. cbn [obind]. eexists. split; [reflexivity|].
    eapply vrep_ext; [|apply addone1; [apply vrep_self; auto|exact Hb]].
    intros i _. cbn [sum_to R_ops tmul]. ring.
Qed.
Lemma mv_lr_ok s k vecs alpha beta x y fx fy : (forall i, (i < k)%nat -> vok s (vecs i)) -> vrep s fx x -> tgt s y -> (beta <> 0 -> vrep s fy y) ->
  exists y', mv_lr OR junk k vecs alpha x beta y = Some y' /\
    vrep s (fun i => beta * fy i + alpha * sum_to (sdim s) (fun j => sum_to k (fun l => elem (vecs l) i * elem (vecs l) j) * fx j)) y'.
Proof.
  intros Hv Hx Ht Hy. unfold mv_lr. pose proof (yscale_r lg beta s fy y Ht Hy) as K.
  apply (loop_ind k _ (fun l y' => vrep s (fun i => beta * fy i + alpha * sum_to (sdim s) (fun j => sum_to l (fun l => elem (vecs l) i * elem (vecs l) j) * fx j)) y')).
  - eapply vrep_ext; [|exact K]. intros; simpl. rewrite sum_to_zero; [ring|intros; ring].
  - intros l b Hl Hb. eexists. split; [reflexivity|].
    rewrite (dot_r lg s fx (elem (vecs l)) x (vecs l)) by (auto; apply vrep_self; auto).
    eapply vrep_ext; [|apply addone1; [apply vrep_self; auto|exact Hb]].
    intros i _. cbn [sum_to]. cbn [R_ops t1 tmul]. 
    rewrite (@sum_to_ext (sdim s) (fun j => (sum_to l (fun l0 => elem (vecs l0) i * elem (vecs l0) j) + elem (vecs l) i * elem (vecs l) j) * fx j)
      (fun j => sum_to l (fun l0 => elem (vecs l0) i * elem (vecs l0) j) * fx j + elem (vecs l) i * (fx j * elem (vecs l) j))) by (intros; ring).
    rewrite sum_to_plus, sum_to_scal. ring.
Qed.
(** writing all positions of an array one after the other *)
Lemma fill_loop k (g : nat -> R -> R) l0 : length l0 = k ->
  exists l, loop k (fun i l => obind (aget l i) (fun u => aput l i (g i u))) l0 = Some l /\ length l = k /\ forall i, (i < k)%nat -> nth i l 0 = g i (nth i l0 0).
Proof.
  intros L. destruct (loop_ind k (fun i l => obind (aget l i) (fun u => aput l i (g i u)))
     (fun n l => length l = k /\ forall i, nth i l 0 = if (i <? n)%nat then g i (nth i l0 0) else nth i l0 0) l0) as (l & E & L1 & N).
  - split; auto.
  - intros n b Hn [Lb Nb]. rewrite aget_ok by lia. cbn [obind]. rewrite aput_ok by lia. eexists. split; [reflexivity|].
    split; [rewrite upd_length; auto|]. intros i. destruct (Nat.eq_dec i n) as [->|Ne].
    + rewrite nth_upd_same by lia. rewrite Nb. destruct (Nat.ltb_spec n n); [lia|]. destruct (Nat.ltb_spec n (S n)); [reflexivity|lia].
    + rewrite nth_upd_other by auto. rewrite Nb. destruct (Nat.ltb_spec i n), (Nat.ltb_spec i (S n)); try lia; reflexivity.
  - exists l. split; [exact E|]. split; [exact L1|]. intros i Hi. rewrite N. apply Nat.ltb_lt in Hi. rewrite Hi. reflexivity.
Qed.
Lemma fill_loop_ext {A} k (f g : nat -> A -> option A) a : (forall i b, f i b = g i b) -> loop k f a = loop k g a.
Proof. intros H. induction k; simpl; auto. rewrite IHk. destruct (loop k g a); auto. Qed.

Lemma values_of n d beta f i : dtg lg n d -> (beta <> 0 -> vrep (SD n) f (Dense n d)) -> (i < n)%nat -> beta * nth i (vlist (d_values n (junk n) d)) 0 = beta * f i.
Proof.
  intros T H Hi. destruct (Req_dec beta 0) as [->|N]; [ring|]. f_equal. apply (values_start _ _ _ (H N)); auto.
Qed.
Lemma mv_trans_ok s k vecs alpha beta x y fx fy : (forall i, (i < k)%nat -> vok s (vecs i)) -> vrep s fx x -> tgt (SD k) y -> (beta <> 0 -> vrep (SD k) fy y) ->
  exists y', mv_trans OR junk k vecs alpha x beta y = Some y' /\ vrep (SD k) (fun i => beta * fy i + alpha * sum_to (sdim s) (fun j => elem (vecs i) j * fx j)) y'.
Proof.
  intros Hv Hx Ht Hy. apply tgt_dense in Ht. destruct Ht as (dy & -> & Ty). unfold mv_trans.
  pose proof (values_tgt k dy Ty) as LW. set (w := d_values k (junk k) dy) in *.
  destruct (fill_loop k (fun i u => if negb (teq OR beta (t0 OR)) then alpha * v_dot OR x (vecs i) + beta * u else alpha * v_dot OR x (vecs i)) (vlist w) LW) as (l & E & L & N).
  cbn [R_ops tadd tmul] in *. rewrite E. cbn [obind]. eexists. split; [reflexivity|]. apply values_finish; auto.
  intros i Hi. rewrite N by auto. 
  rewrite (dot_r lg s fx (elem (vecs i)) x (vecs i)) by (auto; apply vrep_self; auto).
  rewrite <- (values_of k dy beta fy i Ty Hy Hi). fold w.
  rewrite (@sum_to_ext (sdim s) (fun j => elem (vecs i) j * fx j) (fun j => fx j * elem (vecs i) j)) by (intros; ring).
  cbn [R_ops teq t0]. destruct (Req_bool_spec beta 0) as [->|]; cbn [negb]; ring.
Qed.

(** ** ExpandedMultiVectorMatrix *)
Definition erow (vecs : nat -> option (vec R)) (i j : nat) : R := match vecs i with Some v => elem v j | None => 0 end.
Lemma emv_loop_ok s k vecs alpha dx y fx f0 : (forall i, (i < k)%nat -> opt_in s (vecs i)) -> dok k dx -> (forall i, (i < k)%nat -> nth i (dden k dx) 0 = fx i) -> vrep s f0 y ->
  exists y', loop k (fun i y => match vecs i with
                                | Some v => obind (delem dx i) (fun xi => Some (v_addone OR junk (tmul OR alpha xi) v (t1 OR) y))
                                | None => Some y
                                end) y = Some y' /\ vrep s (fun i => f0 i + alpha * sum_to k (fun j => erow vecs j i * fx j)) y'.
Proof.
  intros Hv Dx Vx K.
  apply (loop_ind k _ (fun l y' => vrep s (fun i => f0 i + alpha * sum_to l (fun j => erow vecs j i * fx j)) y')).
  - eapply vrep_ext; [|exact K]. intros; simpl; ring.
  - intros l b Hl Hb. specialize (Hv l Hl). destruct (vecs l) as [v|] eqn:EV.
    + rewrite (delem_ok k dx l fx) by auto. cbn [obind]. eexists. split; [reflexivity|].
      eapply vrep_ext; [|apply addone1; [apply vrep_self; auto|exact Hb]].
      intros i _. cbn [sum_to R_ops tmul]. unfold erow at 3. rewrite EV. ring.
    + exists b. split; [reflexivity|]. eapply vrep_ext; [|exact Hb]. intros i _. cbn [sum_to R_ops tmul]. unfold erow at 3. rewrite EV. ring.
Qed.
(** entry (i, j) of the expanded matrix *)
Definition eden (vecs : nat -> option (vec R)) (P : option (nat * list nat)) (i j : nat) : R :=
  match vecs i with
  | None => 0
  | Some v => match P with
              | None => elem v j
              | Some (_, pos) => sum_to (length pos) (fun l => entry pos j l * elem v l)
              end
  end.
Definition emv_shape (k : nat) (vecs : nat -> option (vec R)) (rs sc : space) (P : option (nat * list nat)) : Prop :=
  (forall i, (i < k)%nat -> opt_in rs (vecs i)) /\
  match P with None => sc = rs | Some (nr, pos) => sc = SD nr /\ rs = SD (length pos) /\ positions nr pos end.
Lemma eden_P vecs nr pos i j : eden vecs (Some (nr, pos)) i j = sum_to (length pos) (fun l => entry pos j l * erow vecs i l).
Proof. unfold eden, erow. destruct (vecs i); [reflexivity|]. rewrite sum_to_zero; [reflexivity|]. intros; ring. Qed.

Lemma emv_trans_ok k vecs rs sc P alpha beta x y fx fy : emv_shape k vecs rs sc P -> vrep (SD k) fx x -> tgt sc y -> (beta <> 0 -> vrep sc fy y) ->
  exists y', emv_trans OR junk jscal k vecs rs P alpha x beta y = Some y' /\ vrep sc (fun i => beta * fy i + alpha * sum_to k (fun j => eden vecs P j i * fx j)) y'.
Proof.
  intros [Hv HP] Hx Ht Hy. apply vrep_dense in Hx. destruct Hx as (dx & -> & Dx & Vx). unfold emv_trans.
  destruct P as [[nr pos]|].
  - destruct HP as (-> & -> & HP).
    destruct (emv_loop_ok _ k vecs alpha dx (v_set (t0 OR) (v_new OR jscal (SD (length pos)))) fx (fun _ => 0) Hv Dx Vx) as (yt & E & V).
    { apply (set_r lg). apply tgt_new. }
    rewrite E. cbn [obind]. destruct (exp_mult_ok nr pos (t1 OR) beta yt y _ fy HP V Ht Hy) as (y' & E' & V').
    exists y'. split; [exact E'|]. eapply vrep_ext; [|exact V']. intros i _. cbn beta. f_equal. cbn [R_ops t1]. rewrite Rmult_1_l.
    rewrite (@sum_to_ext k _ (fun j => sum_to (length pos) (fun l => entry pos i l * erow vecs j l * fx j))).
    2:{ intros j _. rewrite eden_P. rewrite Rmult_comm, <- sum_to_scal. apply sum_to_ext. intros; ring. }
    rewrite sum_to_swap, <- sum_to_scal. apply sum_to_ext. intros l _. rewrite Rplus_0_l, <- !sum_to_scal. apply sum_to_ext. intros; ring.
  - subst sc. destruct (emv_loop_ok _ k vecs alpha dx (yscale OR beta y) fx _ Hv Dx Vx (yscale_r lg beta _ fy y Ht Hy)) as (yt & E & V).
    rewrite E. cbn [obind]. exists yt. split; [reflexivity|]. exact V.
Qed.
Lemma emv_mult_ok k vecs rs sc P alpha beta x y fx fy : emv_shape k vecs rs sc P -> vrep sc fx x -> tgt (SD k) y -> (beta <> 0 -> vrep (SD k) fy y) ->
  exists y', emv_mult OR junk jscal k vecs rs P alpha x beta y = Some y' /\ vrep (SD k) (fun i => beta * fy i + alpha * sum_to (sdim sc) (fun j => eden vecs P i j * fx j)) y'.
Proof.
  intros [Hv HP] Hx Ht Hy. unfold emv_mult.
  assert (XT : exists xt ft, (match P with Some (nr, pos) => exp_mult OR junk nr pos true (t1 OR) x (t0 OR) (v_new OR jscal rs) | None => Some x end) = Some xt /\
     vrep rs ft xt /\ forall i, sum_to (sdim sc) (fun j => eden vecs P i j * fx j) = sum_to (sdim rs) (fun j => ft j * erow vecs i j)).
  { destruct P as [[nr pos]|].
    - destruct HP as (-> & -> & HP).
      destruct (exp_trans_ok nr pos (t1 OR) (t0 OR) x (v_new OR jscal (SD (length pos))) fx (fun _ => 0) HP Hx) as (xt & E & V); [apply tgt_new|cbn [R_ops t0]; lra|].
      exists xt. eexists. split; [exact E|]. split; [exact V|]. intros i. cbn [sdim].
      rewrite (@sum_to_ext nr _ (fun j => sum_to (length pos) (fun l => entry pos j l * fx j * erow vecs i l))).
      2:{ intros j _. rewrite eden_P. rewrite Rmult_comm, <- sum_to_scal. apply sum_to_ext. intros; ring. }
      rewrite sum_to_swap. apply sum_to_ext. intros l _. cbn [R_ops t0 t1]. rewrite Rmult_0_l, Rplus_0_l, Rmult_1_l.
      rewrite Rmult_comm, <- sum_to_scal. apply sum_to_ext. intros; ring.
    - subst rs. exists x, fx. split; [reflexivity|]. split; [exact Hx|]. intros i. apply sum_to_ext. intros j _. unfold eden, erow. destruct (vecs i); ring. }
  destruct XT as (xt & ft & -> & VX & SE). cbn [obind].
  apply tgt_dense in Ht. destruct Ht as (dy & -> & Ty).
  pose proof (values_tgt k dy Ty) as LW. set (w := d_values k (junk k) dy) in *.
  match goal with |- context [loop k (fun i l => obind (aget l i) (fun u => aput l i (@?g i u))) _] =>
    destruct (fill_loop k g (vlist w) LW) as (l & E & L & N) end.
  cbn beta in *. rewrite E. cbn [obind]. eexists. split; [reflexivity|]. apply values_finish; auto.
  intros i Hi. rewrite N by auto. rewrite SE.
  rewrite <- (values_of k dy beta fy i Ty Hy Hi). fold w. specialize (Hv i Hi).
  assert (DOT : match vecs i with Some v => v_dot OR xt v | None => 0 end = sum_to (sdim rs) (fun j => ft j * erow vecs i j)).
  { unfold erow. destruct (vecs i) as [v|]; [|symmetry; apply sum_to_zero; intros; ring]. apply (dot_r lg rs); auto. apply vrep_self. exact Hv. }
  rewrite <- DOT. cbn [R_ops teq t0 tadd tmul]. destruct (Req_bool_spec beta 0) as [->|], (vecs i); cbn [negb]; ring.
Qed.
End Leaf.
