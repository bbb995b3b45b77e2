(** Proofs about problem scaling with exact real numbers. *)
From Coq Require Import List Bool Arith Lia Reals Lra.
From Flocq Require Import Core.
From Verif Require Import Num VecModel ScalModel ScalSpec.
Import ListNotations.
Local Open Scope R_scope.

Section Real.
Variable lg : R -> R.
Notation OR := (R_ops lg).

Lemma tmax_Rmax a b : tmax OR a b = Rmax a b.
Proof. unfold tmax. cbn [R_ops tlt]. case Rlt_bool_spec; intros H; unfold Rmax; destruct (Rle_dec a b); lra. Qed.
Lemma tmin_Rmin a b : tmin OR a b = Rmin a b.
Proof. unfold tmin. cbn [R_ops tlt]. case Rlt_bool_spec; intros H; unfold Rmin; destruct (Rle_dec a b); lra. Qed.

(** ** lists *)
Lemma map2_len {A B C} (f : A -> B -> C) l m : length l = length m -> length (map2 f l m) = length l.
Proof. revert m. induction l as [|a l IH]; intros [|b m] H; cbn in *; try discriminate; auto. Qed.
Lemma map2_nth {A B C} (f : A -> B -> C) l m j a b c : length l = length m -> (j < length l)%nat ->
  nth j (map2 f l m) c = f (nth j l a) (nth j m b).
Proof.
  revert m j. induction l as [|x l IH]; intros [|y m] [|j] H J; cbn in *; try discriminate; try lia; auto.
  apply IH; lia.
Qed.
Lemma map2_nth0 (f : R -> R -> R) l m j : length l = length m -> f 0 0 = 0 ->
  nth j (map2 f l m) 0 = f (nth j l 0) (nth j m 0).
Proof.
  intros H Z. destruct (lt_dec j (length l)) as [L|L]; [apply map2_nth; auto|].
  rewrite !nth_overflow; try lia; auto. rewrite map2_len; auto. lia.
Qed.
Lemma map3_len {A B C D} (f : A -> B -> C -> D) l m k : length l = length m -> length l = length k -> length (map3 f l m k) = length l.
Proof. revert m k. induction l as [|a l IH]; intros [|b m] [|c k] H H'; cbn in *; try discriminate; auto. Qed.
Lemma map3_nth {A B C D} (f : A -> B -> C -> D) l m k j a b c d : length l = length m -> length l = length k -> (j < length l)%nat ->
  nth j (map3 f l m k) d = f (nth j l a) (nth j m b) (nth j k c).
Proof.
  revert m k j. induction l as [|x l IH]; intros [|y m] [|z k] [|j] H H' J; cbn in *; try discriminate; try lia; auto.
  apply IH; lia.
Qed.
Lemma nth_map0 (f : R -> R) l j : f 0 = 0 -> nth j (map f l) 0 = f (nth j l 0).
Proof. intros Z. rewrite <- Z at 1. apply map_nth. Qed.
Lemma list_eq_nth (l m : list R) : length l = length m -> (forall j, (j < length l)%nat -> nth j l 0 = nth j m 0) -> l = m.
Proof. intros H E. apply (nth_ext l m 0 0); auto. Qed.
Lemma fold_add l : forall a, fold_left Rplus l a = a + fold_right Rplus 0 l.
Proof. induction l as [|x l IH]; intros a; cbn [fold_left fold_right]; [ring|]. rewrite IH. ring. Qed.
Lemma sum_R l : sum OR l = fold_right Rplus 0 l.
Proof. unfold sum. cbn [R_ops tadd t0]. rewrite fold_add. ring. Qed.
Lemma dot_R a b : dot OR a b = dotp a b.
Proof. unfold dot, dotp. rewrite sum_R. reflexivity. Qed.

(** ** optional factors *)
Lemma fac_nz n d j : okfac n d -> (j < n)%nat -> fac d j <> 0.
Proof.
  destruct d as [d|]; cbn; [|intros; lra]. intros [L F] J. rewrite Forall_forall in F. apply F, nth_In. lia.
Qed.
Lemma vmul_len n d v : okfac n d -> length v = n -> length (vmul OR d v) = n.
Proof. destruct d as [d|]; cbn [vmul okfac]; auto. intros [L _] H. rewrite map2_len; lia. Qed.
Lemma vdiv_len n d v : okfac n d -> length v = n -> length (vdiv OR d v) = n.
Proof. destruct d as [d|]; cbn [vdiv okfac]; auto. intros [L _] H. rewrite map2_len; lia. Qed.
Lemma vmul_nth n d v j : okfac n d -> length v = n -> nth j (vmul OR d v) 0 = nth j v 0 * fac d j.
Proof.
  destruct d as [d|]; cbn [vmul okfac fac]; [|intros; ring]. intros [L _] H.
  cbn [R_ops tmul]. rewrite map2_nth0; auto; [lia|ring].
Qed.
Lemma vdiv_nth n d v j : okfac n d -> length v = n -> nth j (vdiv OR d v) 0 = nth j v 0 / fac d j.
Proof.
  destruct d as [d|]; cbn [vdiv okfac fac]; [|intros; field]. intros [L _] H.
  cbn [R_ops tdiv]. rewrite map2_nth0; auto; [lia|unfold Rdiv; ring].
Qed.
Lemma vscal_len a v : length (vscal OR a v) = length v.
Proof. unfold vscal. destruct (teq OR a (t1 OR)); auto. apply map_length. Qed.
Lemma vscal_nth a v j : nth j (vscal OR a v) 0 = a * nth j v 0.
Proof.
  unfold vscal. cbn [R_ops teq t1 tmul]. case Req_bool_spec; intros E; [subst; ring|]. rewrite nth_map0; [reflexivity|ring].
Qed.
Lemma axpy_len a x y : length x = length y -> length (axpy OR a x y) = length y.
Proof. intros. unfold axpy. apply map2_len. auto. Qed.
Lemma axpy_nth a x y j : length x = length y -> nth j (axpy OR a x y) 0 = nth j y 0 + a * nth j x 0.
Proof. intros H. unfold axpy. cbn [R_ops tadd tmul]. rewrite map2_nth0; auto. ring. Qed.
Lemma recip_ok n d : okfac n d -> okfac n (option_map (recip OR) d).
Proof.
  destruct d as [d|]; cbn [okfac option_map]; auto. intros [L F]. unfold recip. rewrite map_length. split; auto.
  rewrite Forall_map. eapply Forall_impl; [|exact F]. cbn [R_ops tdiv t1]. intros a N E.
  apply (Rmult_eq_compat_l a) in E. unfold Rdiv in E. rewrite Rmult_0_r in E. field_simplify in E; auto; lra.
Qed.
Lemma recip_fac n d j : okfac n d -> (j < n)%nat -> fac (option_map (recip OR) d) j = / fac d j.
Proof.
  destruct d as [d|]; cbn [okfac option_map fac]; [|intros; field]. intros [L F] J. unfold recip.
  rewrite nth_indep with (d' := tdiv OR (t1 OR) 0) by (rewrite map_length; lia). rewrite (map_nth (fun y => tdiv OR (t1 OR) y)).
  cbn [R_ops tdiv t1]. unfold Rdiv. ring.
Qed.

(** ** matrix products *)
Lemma mv_len A x : length (mv OR A x) = length A.
Proof. apply map_length. Qed.
Lemma dotp_nil x : dotp [] x = 0. Proof. reflexivity. Qed.
Lemma dotp_nil_r x : dotp x [] = 0. Proof. destruct x; reflexivity. Qed.
Lemma mv_nth A x i : nth i (mv OR A x) 0 = dotp (nth i A []) x.
Proof.
  unfold mv. destruct (lt_dec i (length A)) as [L|L].
  - rewrite nth_indep with (d' := dot OR [] x) by (rewrite map_length; auto). rewrite (map_nth (fun r => dot OR r x)). apply dot_R.
  - rewrite !nth_overflow; auto; try lia. rewrite map_length. lia.
Qed.
Definition tmv_from (A : list (list R)) (y acc : list R) : list R :=
  fold_left (fun acc ry => axpy OR (snd ry) (fst ry) acc) (combine A y) acc.
Lemma tmv_gen n j : forall A y acc, Forall (fun r => length r = n) A -> length acc = n ->
  length (tmv_from A y acc) = n /\ nth j (tmv_from A y acc) 0 = nth j acc 0 + tprod A y j.
Proof.
  induction A as [|a A IH]; intros [|y ys] acc F L; unfold tmv_from; cbn [combine fold_left];
    try (split; [exact L|unfold tprod; cbn [map]; rewrite ?dotp_nil, ?dotp_nil_r; ring]).
  inversion F; subst. cbn [fst snd].
  destruct (IH ys (axpy OR y a acc)) as [L1 N1]; auto; [rewrite axpy_len; auto; congruence|].
  split; [exact L1|]. unfold tmv_from in N1. rewrite N1, axpy_nth by auto. unfold tprod, dotp. cbn [map map2 fold_right]. ring.
Qed.
Lemma nth_repeat0 n j : nth j (repeat 0 n) 0 = 0.
Proof. revert j. induction n; intros [|j]; cbn; auto. Qed.
Lemma tmv_len n A y : Forall (fun r => length r = n) A -> length (tmv OR n A y) = n.
Proof. intros F. apply (@tmv_gen n 0%nat A y (repeat (t0 OR) n) F). apply repeat_length. Qed.
Lemma tmv_nth n A y j : Forall (fun r => length r = n) A -> nth j (tmv OR n A y) 0 = tprod A y j.
Proof.
  intros F. destruct (@tmv_gen n j A y (repeat (t0 OR) n) F) as [_ E]; [apply repeat_length|].
  change (tmv OR n A y) with (tmv_from A y (repeat (t0 OR) n)). rewrite E. cbn [R_ops t0]. rewrite nth_repeat0. ring.
Qed.
Lemma start_zero n : start_y OR (t0 OR) (repeat (t0 OR) n) = repeat 0 n.
Proof.
  unfold start_y. cbn [R_ops teq t0]. case Req_bool_spec; intros E; [|lra]. cbn [negb].
  induction n; cbn [repeat map]; congruence.
Qed.
Lemma start_nth b y j : nth j (start_y OR b y) 0 = b * nth j y 0.
Proof.
  unfold start_y. cbn [R_ops teq t0]. case Req_bool_spec; intros E; cbn [negb]; [|apply vscal_nth].
  rewrite nth_map0; auto. subst. ring.
Qed.
Lemma start_len b y : length (start_y OR b y) = length y.
Proof. unfold start_y. destruct (negb _); [apply vscal_len|apply map_length]. Qed.

Lemma dotp_ext a b a' b' : length a = length a' -> length b = length b' -> length a = length b ->
  (forall j, nth j a 0 * nth j b 0 = nth j a' 0 * nth j b' 0) -> dotp a b = dotp a' b'.
Proof.
  intros H1 H2 H3 E. unfold dotp. f_equal. apply list_eq_nth.
  - rewrite !map2_len; lia.
  - intros j J. rewrite !map2_nth0; try lia; try ring. apply E.
Qed.
Lemma dotp_scal k a b : dotp (map (Rmult k) a) b = k * dotp a b.
Proof.
  unfold dotp. revert b. induction a as [|x a IH]; intros [|y b]; cbn [map map2 fold_right]; try ring. rewrite IH. ring.
Qed.

(** MultVector / TransMultVector of a scaled matrix: the matrix with entries
    row_i * a_ij * col_j *)
Lemma sm_mult_len m n row col A alpha x beta y : okfac m row -> okfac n col -> length A = m -> length y = m ->
  length (sm_mult OR row col A alpha x beta y) = m.
Proof.
  intros Hr Hc HA Hy. unfold sm_mult. rewrite axpy_len; rewrite start_len; auto.
  rewrite (vmul_len m); auto. rewrite mv_len; auto.
Qed.
Lemma sm_mult_nth m n row col A alpha x beta y i : okfac m row -> okfac n col -> length A = m -> Forall (fun r => length r = n) A ->
  length x = n -> length y = m ->
  nth i (sm_mult OR row col A alpha x beta y) 0
  = beta * nth i y 0 + alpha * (fac row i * dotp (nth i A []) (vmul OR col x)).
Proof.
  intros Hr Hc HA FA Hx Hy. unfold sm_mult. rewrite axpy_nth.
  - rewrite start_nth, (vmul_nth m); auto; [|rewrite mv_len; auto]. rewrite mv_nth. ring.
  - rewrite start_len, (vmul_len m); auto. rewrite mv_len; auto.
Qed.
Lemma sm_tmult_len m n row col A alpha x beta y : okfac m row -> okfac n col -> Forall (fun r => length r = n) A ->
  length y = n -> length (sm_tmult OR row col A alpha x beta y) = n.
Proof.
  intros Hr Hc FA Hy. unfold sm_tmult. cbv zeta. rewrite start_len, Hy. rewrite axpy_len; rewrite start_len; auto.
  rewrite (vmul_len n); auto. apply tmv_len. auto.
Qed.
Lemma sm_tmult_nth m n row col A alpha x beta y j : okfac m row -> okfac n col -> length A = m -> Forall (fun r => length r = n) A ->
  length x = m -> length y = n ->
  nth j (sm_tmult OR row col A alpha x beta y) 0
  = beta * nth j y 0 + alpha * (tprod A (vmul OR row x) j * fac col j).
Proof.
  intros Hr Hc HA FA Hx Hy. unfold sm_tmult. cbv zeta. rewrite start_len, Hy. rewrite axpy_nth.
  - rewrite start_nth, (vmul_nth n); auto; [|apply tmv_len; auto]. rewrite tmv_nth; auto.
  - rewrite start_len, (vmul_len n); auto. apply tmv_len. auto.
Qed.

(** ** expansion matrices *)
Lemma addat_len i a (l : list R) : length (addat OR i a l) = length l.
Proof. revert i. induction l; intros [|i]; cbn [addat length]; auto. Qed.
Lemma addat_nth i a l j : (j < length l)%nat -> nth j (addat OR i a l) 0 = nth j l 0 + (if Nat.eqb i j then a else 0).
Proof.
  revert i j. induction l as [|b l IH]; intros [|i] [|j] J; cbn [addat nth length Nat.eqb R_ops tadd] in *; try lia; try ring.
  rewrite IH by lia. reflexivity.
Qed.
Lemma expand_into_spec pos a : forall v y, 
  length (expand_into OR pos a v y) = length y /\
  forall j, (j < length y)%nat -> nth j (expand_into OR pos a v y) 0 = nth j y 0 + a * zat pos v j.
Proof.
  unfold expand_into, zat. induction pos as [|p pos IH]; intros [|v vs] y; cbn [combine fold_left fold_right];
    try (split; [auto|intros; ring]).
  destruct (IH vs (addat OR p (tmul OR a v) y)) as [L N]. rewrite addat_len in L, N. cbn [fst snd] in *.
  split; auto. intros j J. rewrite N by auto. rewrite addat_nth by auto. cbn [R_ops tmul].
  destruct (Nat.eqb p j); ring.
Qed.
Lemma expand_into_len pos a v y : length (expand_into OR pos a v y) = length y.
Proof. apply expand_into_spec. Qed.
Lemma expand_into_nth pos a v y j : (j < length y)%nat -> nth j (expand_into OR pos a v y) 0 = nth j y 0 + a * zat pos v j.
Proof. apply expand_into_spec. Qed.
Lemma expand_len n pos v : length (expand OR n pos v) = n.
Proof. unfold expand. rewrite expand_into_len. apply repeat_length. Qed.
Lemma expand_nth n pos v j : (j < n)%nat -> nth j (expand OR n pos v) 0 = zat pos v j.
Proof.
  intros J. unfold expand. rewrite expand_into_nth by (rewrite repeat_length; auto).
  cbn [R_ops t0 t1]. rewrite nth_repeat0. ring.
Qed.
Lemma zat_out pos v j : ~ In j pos -> zat pos v j = 0.
Proof.
  unfold zat. revert v. induction pos as [|p pos IH]; intros [|v vs] N; cbn [combine fold_right]; auto.
  cbn [fst snd In] in *. destruct (Nat.eqb_spec p j); [tauto|]. apply IH. tauto.
Qed.
Lemma zat_in pos v k : NoDup pos -> length v = length pos -> (k < length pos)%nat -> zat pos v (nth k pos 0%nat) = nth k v 0.
Proof.
  intros ND. revert v k. induction pos as [|p pos IH]; intros [|v vs] k L K; cbn [length] in *; try lia.
  inversion ND; subst. unfold zat. cbn [combine fold_right fst snd]. destruct k as [|k]; cbn [nth].
  - rewrite Nat.eqb_refl. change (v + zat pos vs p = v). rewrite zat_out; auto. ring.
  - destruct (Nat.eqb_spec p (nth k pos 0%nat)) as [E|E].
    + exfalso. apply H1. rewrite E. apply nth_In. lia.
    + change (zat pos vs (nth k pos 0%nat) = nth k vs 0). apply IH; auto; lia.
Qed.
Lemma zat_map (f : nat -> R) g pos v j : (forall k, (k < length pos)%nat -> nth k pos 0%nat = j -> nth k (g v) 0 = f j * nth k v 0) ->
  NoDup pos -> length v = length pos -> length (g v) = length pos -> zat pos (g v) j = f j * zat pos v j.
Proof.
  intros G ND L L'. destruct (in_dec Nat.eq_dec j pos) as [I0|I0].
  - destruct (In_nth _ _ 0%nat I0) as (k & K & E). rewrite <- E at 1 3. rewrite !zat_in; auto.
  - rewrite !zat_out; auto. ring.
Qed.
Lemma pick_len pos (v : list R) : length (pick OR pos v) = length pos.
Proof. apply map_length. Qed.
Lemma pick_nth pos v k : (k < length pos)%nat -> nth k (pick OR pos v) 0 = nth (nth k pos 0%nat) v 0.
Proof.
  intros K. unfold pick. cbn [R_ops t0].
  rewrite nth_indep with (d' := nth 0 v 0) by (rewrite map_length; auto). rewrite (map_nth (fun i => nth i v 0)). auto.
Qed.
Lemma okpos_lt n pos k : okpos n pos -> (k < length pos)%nat -> (nth k pos 0%nat < n)%nat.
Proof. intros [_ F] K. rewrite Forall_forall in F. apply F, nth_In; auto. Qed.
Lemma LU_len n pos s v : length v = length pos -> length (apply_x_LU OR s n pos v) = length pos.
Proof. intros L. unfold apply_x_LU. destruct (sx s); auto. apply pick_len. Qed.
Lemma LU_nth n pos s v k : okfac n (sx s) -> okpos n pos -> length v = length pos -> (k < length pos)%nat ->
  nth k (apply_x_LU OR s n pos v) 0 = fac (sx s) (nth k pos 0%nat) * nth k v 0.
Proof.
  intros Hx P L K. pose proof (okpos_lt _ _ _ P K) as PN. unfold apply_x_LU, apply_x. destruct (sx s) as [d|]; [|cbn [fac]; ring].
  rewrite pick_nth by auto. rewrite (vmul_nth n); auto; [|apply expand_len]. rewrite expand_nth by auto.
  destruct P as [ND _]. rewrite zat_in by auto. ring.
Qed.
Lemma LUd_len n pos s v : length v = length pos -> length (apply_d_LU OR s n pos v) = length pos.
Proof. intros L. unfold apply_d_LU. destruct (sd s); auto. apply pick_len. Qed.
Lemma LUd_nth n pos s v k : okfac n (sd s) -> okpos n pos -> length v = length pos -> (k < length pos)%nat ->
  nth k (apply_d_LU OR s n pos v) 0 = fac (sd s) (nth k pos 0%nat) * nth k v 0.
Proof.
  intros Hx P L K. pose proof (okpos_lt _ _ _ P K) as PN. unfold apply_d_LU, apply_d. destruct (sd s) as [d|]; [|cbn [fac]; ring].
  rewrite pick_nth by auto. rewrite (vmul_nth n); auto; [|apply expand_len]. rewrite expand_nth by auto.
  destruct P as [ND _]. rewrite zat_in by auto. ring.
Qed.

(** ** the scaled functions *)
Variables (n mc md : nat) (s : scaling (T := R)) (p : nlp (T := R)).
Hypothesis OK : okscal n mc md s.
Hypothesis SH : shape n mc md p.

Lemma ux_len x : length x = n -> length (unapply_x OR s x) = n.
Proof. intros. apply vdiv_len; auto. apply OK. Qed.

(** moving along v in the scaled space is moving along v/dx in the user's space *)
Lemma ux_along x v t : length x = n -> length v = n ->
  unapply_x OR s (along x v t) = along (unapply_x OR s x) (unapply_x OR s v) t.
Proof.
  intros Hx Hv. assert (OX : okfac n (sx s)) by apply OK.
  assert (La : length (along x v t) = n) by (unfold along; rewrite map2_len; lia).
  apply list_eq_nth.
  - rewrite ux_len; auto. unfold along. rewrite map2_len; rewrite !ux_len; auto.
  - intros j J. rewrite ux_len in J by auto. unfold unapply_x at 1. rewrite (vdiv_nth n) by auto.
    unfold along. rewrite map2_nth0; [|lia|ring]. rewrite map2_nth0; [|rewrite !ux_len; auto|ring].
    unfold unapply_x. rewrite !(vdiv_nth n) by auto. field. apply (fac_nz n); auto.
Qed.

Lemma s_grad_nth x j : length x = n -> (j < n)%nat ->
  nth j (s_grad OR s p x) 0 = sf s / fac (sx s) j * nth j (n_grad p (unapply_x OR s x)) 0.
Proof.
  intros Hx J. unfold s_grad, apply_grad. rewrite vscal_nth. unfold unapply_x at 1.
  rewrite (vdiv_nth n); [|apply OK|apply SH, ux_len; auto]. unfold apply_obj. cbn [R_ops tmul t1]. field. apply (fac_nz n); auto. apply OK.
Qed.
Lemma s_grad_len x : length x = n -> length (s_grad OR s p x) = n.
Proof.
  intros Hx. unfold s_grad, apply_grad. rewrite vscal_len. apply vdiv_len; [apply OK|]. apply SH, ux_len; auto.
Qed.
Lemma jc_tmult_nth x y j : length x = n -> length y = mc -> (j < n)%nat ->
  nth j (jc_tmult OR s p x y) 0 = / fac (sx s) j * tprod (n_jc p (unapply_x OR s x)) (apply_c OR s y) j.
Proof.
  intros Hx Hy J. unfold jc_tmult. destruct OK as (Of & Ox & Oc & Od). destruct (SH (unapply_x OR s x) (ux_len x Hx)) as (_ & _ & A & B & _).
  rewrite (sm_tmult_nth mc n) by (auto using repeat_length; try (apply recip_ok; auto); rewrite repeat_length; auto).
  cbn [R_ops t0 t1]. unfold colscal. rewrite (recip_fac n) by auto. unfold apply_c. ring.
Qed.
Lemma jd_tmult_nth x y j : length x = n -> length y = md -> (j < n)%nat ->
  nth j (jd_tmult OR s p x y) 0 = / fac (sx s) j * tprod (n_jd p (unapply_x OR s x)) (apply_d OR s y) j.
Proof.
  intros Hx Hy J. unfold jd_tmult. destruct OK as (Of & Ox & Oc & Od). destruct (SH (unapply_x OR s x) (ux_len x Hx)) as (_ & _ & _ & _ & _ & A & B & _).
  rewrite (sm_tmult_nth md n) by (auto using repeat_length; try (apply recip_ok; auto); rewrite repeat_length; auto).
  cbn [R_ops t0 t1]. unfold colscal. rewrite (recip_fac n) by auto. unfold apply_d. ring.
Qed.
Lemma jc_tmult_len x y : length x = n -> length (jc_tmult OR s p x y) = n.
Proof.
  intros Hx. unfold jc_tmult. destruct OK as (Of & Ox & Oc & Od). destruct (SH (unapply_x OR s x) (ux_len x Hx)) as (_ & _ & A & B & _).
  eapply sm_tmult_len; eauto. apply recip_ok; auto. rewrite repeat_length; auto.
Qed.
Lemma jd_tmult_len x y : length x = n -> length (jd_tmult OR s p x y) = n.
Proof.
  intros Hx. unfold jd_tmult. destruct OK as (Of & Ox & Oc & Od). destruct (SH (unapply_x OR s x) (ux_len x Hx)) as (_ & _ & _ & _ & _ & A & B & _).
  eapply sm_tmult_len; eauto. apply recip_ok; auto. rewrite repeat_length; auto.
Qed.

(** col-scaled direction = direction divided by dx *)
Lemma vmul_colscal v : length v = n -> vmul OR (colscal OR s) v = unapply_x OR s v.
Proof.
  intros Hv. assert (OX : okfac n (sx s)) by apply OK. pose proof (recip_ok n _ OX) as OC. apply list_eq_nth.
  - unfold unapply_x. rewrite (vmul_len n), (vdiv_len n); auto.
  - intros j J. unfold colscal in *. rewrite (vmul_len n) in J by auto. rewrite (vmul_nth n) by auto.
    rewrite (recip_fac n) by auto. unfold unapply_x. rewrite (vdiv_nth n) by auto. reflexivity.
Qed.

Lemma jc_mult_nth x v i : length x = n -> length v = n ->
  nth i (jc_mult OR s p x v) 0 = fac (sc s) i * dotp (nth i (n_jc p (unapply_x OR s x)) []) (unapply_x OR s v).
Proof.
  intros Hx Hv. unfold jc_mult. destruct OK as (Of & Ox & Oc & Od). destruct (SH (unapply_x OR s x) (ux_len x Hx)) as (_ & _ & A & B & _).
  rewrite (sm_mult_nth mc n); auto; [|apply recip_ok; auto|rewrite repeat_length; auto].
  rewrite vmul_colscal by auto. cbn [R_ops t0 t1]. ring.
Qed.
Lemma jd_mult_nth x v i : length x = n -> length v = n ->
  nth i (jd_mult OR s p x v) 0 = fac (sd s) i * dotp (nth i (n_jd p (unapply_x OR s x)) []) (unapply_x OR s v).
Proof.
  intros Hx Hv. unfold jd_mult. destruct OK as (Of & Ox & Oc & Od). destruct (SH (unapply_x OR s x) (ux_len x Hx)) as (_ & _ & _ & _ & _ & A & B & _).
  rewrite (sm_mult_nth md n); auto; [|apply recip_ok; auto|rewrite repeat_length; auto].
  rewrite vmul_colscal by auto. cbn [R_ops t0 t1]. ring.
Qed.

(** ** derivatives *)
Lemma deriv_ext f g a l : (forall t, f t = g t) -> derivable_pt_lim f a l -> derivable_pt_lim g a l.
Proof. intros E H e He. destruct (H e He) as [d Hd]. exists d. intros h A B. rewrite <- !E. auto. Qed.
Lemma deriv_scal k f a l : derivable_pt_lim f a l -> derivable_pt_lim (fun t => k * f t) a (k * l).
Proof. intros H. apply (derivable_pt_lim_scal f k a l H). Qed.

Lemma dotp_move g v : length g = n -> length v = n -> forall k : R,
  dotp (map (Rmult k) g) (unapply_x OR s v) = dotp (map2 (fun a j => k / fac (sx s) j * a) g (seq 0 n)) v.
Proof.
  intros Hg Hv k. apply dotp_ext.
  - rewrite map_length, map2_len; rewrite ?seq_length; auto.
  - rewrite ux_len; auto.
  - rewrite map_length, ux_len; auto.
  - intros j. unfold unapply_x. rewrite (vdiv_nth n); auto; [|apply OK]. rewrite nth_map0 by ring.
    destruct (lt_dec j n) as [J|J].
    + rewrite (map2_nth _ _ _ _ 0 0%nat); rewrite ?seq_length; auto; try lia. rewrite seq_nth by auto.
      cbn [Nat.add]. field. apply (fac_nz n); auto. apply OK.
    + rewrite !(nth_overflow v) by lia. unfold Rdiv. ring.
Qed.

Lemma scaled_gradient x : length x = n ->
  is_gradient (n_f p) (unapply_x OR s x) (n_grad p (unapply_x OR s x)) -> is_gradient (s_f OR s p) x (s_grad OR s p x).
Proof.
  intros Hx [L D]. split; [rewrite s_grad_len; auto|]. intros v Hv.
  specialize (D (unapply_x OR s v)). rewrite !ux_len in D by lia. specialize (D eq_refl).
  apply (deriv_ext (fun t => sf s * n_f p (along (unapply_x OR s x) (unapply_x OR s v) t))).
  - intros t. unfold s_f, apply_obj. cbn [R_ops tmul]. rewrite ux_along by lia. reflexivity.
  - replace (dotp (s_grad OR s p x) v) with (sf s * dotp (n_grad p (unapply_x OR s x)) (unapply_x OR s v)).
    + apply deriv_scal, D.
    + rewrite <- dotp_scal. assert (G : length (n_grad p (unapply_x OR s x)) = n) by (rewrite L; apply ux_len; auto).
      rewrite dotp_move by lia. f_equal. apply list_eq_nth.
      * rewrite map2_len, s_grad_len; rewrite ?seq_length; auto.
      * intros j J. rewrite map2_len in J by (rewrite seq_length; auto). rewrite s_grad_nth by lia.
        rewrite (map2_nth _ _ _ _ 0 0%nat); rewrite ?seq_length; auto. rewrite seq_nth by lia. reflexivity.
Qed.

Lemma scaled_jac_c x : length x = n ->
  is_jacobian (n_c p) (unapply_x OR s x) (rows_times (n_jc p (unapply_x OR s x))) -> is_jacobian (s_c OR s p) x (jc_mult OR s p x).
Proof.
  intros Hx D v i Hv. specialize (D (unapply_x OR s v) i). rewrite !ux_len in D by lia. specialize (D eq_refl).
  apply (deriv_ext (fun t => fac (sc s) i * nth i (n_c p (along (unapply_x OR s x) (unapply_x OR s v) t)) 0)).
  - intros t. unfold s_c, apply_c. rewrite ux_along by lia. destruct OK as (Of & Ox & Oc & Od). rewrite (vmul_nth mc); auto; [ring|].
    apply SH. rewrite <- ux_along by lia. apply ux_len. unfold along. rewrite map2_len; lia.
  - rewrite jc_mult_nth by lia. apply deriv_scal.
    replace (dotp (nth i (n_jc p (unapply_x OR s x)) []) (unapply_x OR s v))
      with (nth i (rows_times (n_jc p (unapply_x OR s x)) (unapply_x OR s v)) 0); auto.
    unfold rows_times. apply (map_nth (fun r => dotp r (unapply_x OR s v)) _ []).
Qed.
Lemma scaled_jac_d x : length x = n ->
  is_jacobian (n_d p) (unapply_x OR s x) (rows_times (n_jd p (unapply_x OR s x))) -> is_jacobian (s_d OR s p) x (jd_mult OR s p x).
Proof.
  intros Hx D v i Hv. specialize (D (unapply_x OR s v) i). rewrite !ux_len in D by lia. specialize (D eq_refl).
  apply (deriv_ext (fun t => fac (sd s) i * nth i (n_d p (along (unapply_x OR s x) (unapply_x OR s v) t)) 0)).
  - intros t. unfold s_d, apply_d. rewrite ux_along by lia. destruct OK as (Of & Ox & Oc & Od). rewrite (vmul_nth md); auto; [ring|].
    apply SH. rewrite <- ux_along by lia. apply ux_len. unfold along. rewrite map2_len; lia.
  - rewrite jd_mult_nth by lia. apply deriv_scal.
    replace (dotp (nth i (n_jd p (unapply_x OR s x)) []) (unapply_x OR s v))
      with (nth i (rows_times (n_jd p (unapply_x OR s x)) (unapply_x OR s v)) 0); auto.
    unfold rows_times. apply (map_nth (fun r => dotp r (unapply_x OR s v)) _ []).
Qed.

Lemma h_mult_nth x obj yc yd v j : length x = n -> length v = n -> (j < n)%nat ->
  nth j (h_mult OR s p x obj yc yd v) 0
  = / fac (sx s) j * dotp (nth j (n_h p (unapply_x OR s x) (sf s * obj) (apply_c OR s yc) (apply_d OR s yd)) []) (unapply_x OR s v).
Proof.
  intros Hx Hv J. unfold h_mult, apply_obj. cbn [R_ops tmul]. destruct OK as (Of & Ox & Oc & Od).
  destruct (SH (unapply_x OR s x) (ux_len x Hx)) as (_ & _ & _ & _ & _ & _ & _ & HH).
  destruct (HH (sf s * obj) (apply_c OR s yc) (apply_d OR s yd)) as [A B].
  unfold ssm_mult. fold (sm_mult OR (colscal OR s) (colscal OR s) (n_h p (unapply_x OR s x) (sf s * obj) (apply_c OR s yc) (apply_d OR s yd)) (t1 OR) v (t0 OR) (repeat (t0 OR) (length x))).
  pose proof (recip_ok n _ Ox) as OC. rewrite (sm_mult_nth n n); auto; [|rewrite repeat_length; auto].
  rewrite vmul_colscal by auto. unfold colscal. rewrite (recip_fac n) by auto. cbn [R_ops t0 t1]. ring.
Qed.

Lemma scaled_hessian x obj yc yd : length x = n -> length yc = mc -> length yd = md ->
  is_derivative_of_gradient n (fun u => lag_grad p (sf s * obj) (apply_c OR s yc) (apply_d OR s yd) u) (unapply_x OR s x)
    (rows_times (n_h p (unapply_x OR s x) (sf s * obj) (apply_c OR s yc) (apply_d OR s yd))) ->
  is_derivative_of_gradient n
    (fun u j => obj * nth j (s_grad OR s p u) 0 + nth j (jc_tmult OR s p u yc) 0 + nth j (jd_tmult OR s p u yd) 0) x
    (h_mult OR s p x obj yc yd).
Proof.
  intros Hx Hc Hd D v j Hv J. specialize (D (unapply_x OR s v) j (ux_len v Hv) J).
  apply (deriv_ext (fun t => / fac (sx s) j * lag_grad p (sf s * obj) (apply_c OR s yc) (apply_d OR s yd) (along (unapply_x OR s x) (unapply_x OR s v) t) j)).
  - intros t. assert (La : length (along x v t) = n) by (unfold along; rewrite map2_len; lia).
    rewrite s_grad_nth, jc_tmult_nth, jd_tmult_nth by lia. rewrite ux_along by lia. unfold lag_grad. unfold Rdiv. ring.
  - rewrite h_mult_nth by lia. apply deriv_scal.
    replace (dotp (nth j (n_h p (unapply_x OR s x) (sf s * obj) (apply_c OR s yc) (apply_d OR s yd)) []) (unapply_x OR s v))
      with (nth j (rows_times (n_h p (unapply_x OR s x) (sf s * obj) (apply_c OR s yc) (apply_d OR s yd)) (unapply_x OR s v)) 0); auto.
    unfold rows_times. apply (map_nth (fun r => dotp r (unapply_x OR s v)) _ []).
Qed.

(** ** optimality conditions *)
Lemma tprod_scal A y k j : tprod A (vscal OR k y) j = k * tprod A y j.
Proof.
  unfold tprod. rewrite <- dotp_scal. f_equal. apply list_eq_nth; rewrite vscal_len; [rewrite map_length; auto|].
  intros i _. rewrite vscal_nth, nth_map0; ring.
Qed.
Lemma fin_z_nth pos z k : okpos n pos -> length z = length pos -> (k < length pos)%nat ->
  nth k (fin_z OR s n pos z) 0 = fac (sx s) (nth k pos 0%nat) / sf s * nth k z 0.
Proof.
  intros P L K. unfold fin_z. rewrite vscal_nth, LU_nth; auto; [|apply OK]. unfold unapply_obj. cbn [R_ops tdiv t1].
  field. apply OK.
Qed.
Lemma fin_z_len pos z : length z = length pos -> length (fin_z OR s n pos z) = length pos.
Proof. intros. unfold fin_z. rewrite vscal_len. apply LU_len; auto. Qed.
Lemma zat_fin pos z j : okpos n pos -> length z = length pos -> zat pos (fin_z OR s n pos z) j = fac (sx s) j / sf s * zat pos z j.
Proof.
  intros P L. apply (zat_map (fun j => fac (sx s) j / sf s)); auto.
  - intros k K E. rewrite fin_z_nth by auto. rewrite E. reflexivity.
  - apply P.
  - apply fin_z_len; auto.
Qed.

Lemma grad_lag_len lpos upos x yc yd zl zu : length x = n -> length (grad_lag_x OR s p lpos upos x yc yd zl zu) = n.
Proof.
  intros Hx. unfold grad_lag_x. rewrite !expand_into_len, map3_len, s_grad_len; auto; rewrite s_grad_len, ?jc_tmult_len, ?jd_tmult_len; auto.
Qed.
Lemma grad_lag_R lpos upos x yc yd zl zu j :
  length x = n -> length yc = mc -> length yd = md -> okpos n lpos -> okpos n upos ->
  length zl = length lpos -> length zu = length upos -> (j < n)%nat ->
  nth j (grad_lag_x OR s p lpos upos x yc yd zl zu) 0
  = sf s / fac (sx s) j *
    lag_res p lpos upos (fin_x OR s x) (fin_yc OR s yc) (fin_yd OR s yd) (fin_z OR s n lpos zl) (fin_z OR s n upos zu) j.
Proof.
  intros Hx Hc Hd Pl Pu Ll Lu J. assert (F : fac (sx s) j <> 0) by (apply (fac_nz n); auto; apply OK).
  assert (SF : sf s <> 0) by apply OK.
  unfold grad_lag_x.
  assert (M : length (map3 (fun g a b : R => tadd OR (tadd OR (tmul OR (t1 OR) a) (tmul OR (t1 OR) b)) (tmul OR (t1 OR) g))
       (s_grad OR s p x) (jc_tmult OR s p x yc) (jd_tmult OR s p x yd)) = n)
    by (rewrite map3_len, s_grad_len; auto; rewrite s_grad_len, ?jc_tmult_len, ?jd_tmult_len; auto).
  rewrite !expand_into_nth by (rewrite ?expand_into_len, M; auto).
  rewrite (map3_nth _ _ _ _ _ 0 0 0); try (rewrite s_grad_len, ?jc_tmult_len, ?jd_tmult_len; auto).
  rewrite s_grad_nth, jc_tmult_nth, jd_tmult_nth by auto.
  unfold lag_res, fin_x, fin_yc, fin_yd. rewrite !tprod_scal, !zat_fin by auto.
  unfold unapply_obj. cbn [R_ops tadd tmul tdiv t1 tm1]. field. auto.
Qed.

(** ** norms *)
Lemma fr_max_nonneg l : 0 <= fold_right Rmax 0 l.
Proof. induction l; cbn [fold_right]; [lra|]. eapply Rle_trans; [exact IHl|apply Rmax_r]. Qed.
Lemma fr_max_app l m : fold_right Rmax 0 (l ++ m) = Rmax (fold_right Rmax 0 l) (fold_right Rmax 0 m).
Proof.
  induction l; cbn [app fold_right]; [rewrite Rmax_right; auto; apply fr_max_nonneg|]. rewrite IHl. rewrite Rmax_assoc. reflexivity.
Qed.
Lemma amax_gen l : forall a, 0 <= a -> fold_left (fun m y => if tlt OR m (tabs OR y) then tabs OR y else m) l a = Rmax a (fold_right Rmax 0 (map Rabs l)).
Proof.
  induction l as [|x l IH]; intros a A; cbn [fold_left map fold_right]; [rewrite Rmax_left; auto|].
  change (if tlt OR a (tabs OR x) then tabs OR x else a) with (tmax OR a (tabs OR x)).
  rewrite tmax_Rmax. cbn [R_ops tabs]. rewrite IH; [|eapply Rle_trans; [exact A|apply Rmax_l]]. rewrite Rmax_assoc. auto.
Qed.
Lemma amax_R l : amax OR l = fold_right Rmax 0 (map Rabs l).
Proof.
  unfold amax, blas_amax. destruct l as [|x l]; [reflexivity|]. rewrite amax_gen by apply Rabs_pos. reflexivity.
Qed.
Lemma fr_add_app l m : fold_right Rplus 0 (l ++ m) = fold_right Rplus 0 l + fold_right Rplus 0 m.
Proof. induction l; cbn [app fold_right]; [ring|]. rewrite IHl. ring. Qed.
Lemma sq_nonneg l : 0 <= fold_right Rplus 0 (map (fun a => a * a) l).
Proof. induction l; cbn [map fold_right]; [lra|]. pose proof (Rle_0_sqr a). unfold Rsqr in *. lra. Qed.
Lemma norm_R nt vs : norm_of OR nt vs = norm_spec nt vs.
Proof.
  unfold norm_of, norm_spec. destruct nt.
  - assert (G : forall a, fold_left (fun r v => tadd OR r (asum OR v)) vs a = a + fold_right Rplus 0 (map Rabs (concat vs))).
    { induction vs as [|v vs IH]; intros a; cbn [fold_left concat map]; [cbn; ring|].
      rewrite IH, map_app, fr_add_app. unfold asum. rewrite sum_R. cbn [R_ops tadd tabs]. ring. }
    rewrite G. cbn [R_ops t0]. ring.
  - assert (G : forall a, fold_left (fun r v => tadd OR r (tmul OR (nrm2 OR v) (nrm2 OR v))) vs a = a + fold_right Rplus 0 (map (fun a => a * a) (concat vs))).
    { induction vs as [|v vs IH]; intros a; cbn [fold_left concat map]; [cbn; ring|].
      rewrite IH, map_app, fr_add_app. unfold nrm2. rewrite sum_R. cbn [R_ops tadd tmul tsqrt].
      rewrite sqrt_sqrt by apply sq_nonneg. ring. }
    rewrite G. cbn [R_ops t0 tsqrt]. f_equal. ring.
  - assert (G : forall a, 0 <= a -> fold_left (fun r v => tmax OR r (amax OR v)) vs a = Rmax a (fold_right Rmax 0 (map Rabs (concat vs)))).
    { induction vs as [|v vs IH]; intros a A; cbn [fold_left concat map]; [cbn; rewrite Rmax_left; auto|].
      rewrite tmax_Rmax, amax_R. rewrite IH; [|eapply Rle_trans; [exact A|apply Rmax_l]].
      rewrite map_app, fr_max_app, Rmax_assoc. auto. }
    rewrite G by (cbn; lra). cbn [R_ops t0]. rewrite Rmax_right; auto. apply fr_max_nonneg.
Qed.
End Real.
