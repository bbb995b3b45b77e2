(** C25: expansion matrices pick and place components. *)
From Coq Require Import List Bool Arith ZArith Reals Lia Lra.
From Flocq Require Import Core.
From Verif Require Import Num VecModel VecSpec VecProofs VecReal VecNum ExpModel ExpSpec ExpProofs.
Import ListNotations.
Local Open Scope R_scope.
Set Implicit Arguments.

(** y <- alpha P x + beta y, exact arithmetic. y need not have values if beta = 0. *)
Theorem C25_mult_real lg nrows pos junk alpha x beta y : positions nrows pos -> dok (length pos) x -> (beta <> 0 -> dok nrows y) ->
  let y' := e_mult (R_ops lg) nrows pos junk alpha x beta y in
  dok nrows y' /\
  (forall j, (j < nrows)%nat -> nth j (dden nrows y') 0 = alpha * times pos (dden (length pos) x) j + beta * nth j (dden nrows y) 0).
Proof.
  intros P Hx Hy y'. destruct (@mult_real lg nrows pos junk alpha x beta y P Hx Hy) as (A & B & C).
  split; [exact A|]. intros j Hj. destruct (in_dec Nat.eq_dec j pos) as [I|N].
  - destruct (In_nth _ _ 0%nat I) as (i & Hi & E). subst j. subst y'. rewrite (B i Hi), (@times_in _ _ _ _ P Hi). ring.
  - subst y'. rewrite (C j Hj N), (@times_out _ _ _ N). ring.
Qed.
(** y <- alpha P^T x + beta y *)
Theorem C25_trans_mult_real lg nrows pos junk alpha x beta y : positions nrows pos -> dok nrows x -> (beta <> 0 -> dok (length pos) y) ->
  let y' := e_trans (R_ops lg) pos junk alpha x beta y in
  dok (length pos) y' /\
  (forall i, (i < length pos)%nat -> nth i (dden (length pos) y') 0 =
     alpha * trans_times pos nrows (dden nrows x) i + beta * nth i (dden (length pos) y) 0).
Proof.
  intros P Hx Hy y'. destruct (@trans_real lg nrows pos junk alpha x beta y P Hx Hy) as (A & B).
  split; [exact A|]. intros i Hi. subst y'. rewrite (B i Hi), (@trans_times_at _ _ _ _ P Hi). ring.
Qed.

(** The same on doubles, element by element, for all values including NaN and
    infinities: each component goes to its place, all other elements are only
    scaled. "same": equal or both zero. *)
Theorem C25_mult_double lg nrows pos junk alpha x beta y : positions nrows pos -> dok (length pos) x -> (neqb beta nzero = false -> dok nrows y) ->
  let y' := e_mult (num_ops lg) nrows pos junk alpha x beta y in
  let scaled u := if neqb beta nzero then nzero else nmul u beta in
  dok nrows y' /\
  (forall i, (i < length pos)%nat ->
     same (nth (nth i pos 0%nat) (dden nrows y') nzero)
          (nadd (scaled (nth (nth i pos 0%nat) (dden nrows y) nzero)) (nmul alpha (nth i (dden (length pos) x) nzero)))) /\
  (forall j, (j < nrows)%nat -> ~ In j pos -> nth j (dden nrows y') nzero = scaled (nth j (dden nrows y) nzero)).
Proof.
  intros P Hx Hy y' scaled. destruct (@mult_gen _ (num_ops lg) (num_laws lg) nrows pos junk alpha x beta y P Hx Hy) as (A & B & C).
  split; [exact A|]. split; [|exact C]. intros i Hi. specialize (B i Hi). subst y'. cbn [num_ops t0] in *. rewrite B. apply added_num.
Qed.
Theorem C25_trans_mult_double lg nrows pos junk alpha x beta y : positions nrows pos -> dok nrows x -> (neqb beta nzero = false -> dok (length pos) y) ->
  let y' := e_trans (num_ops lg) pos junk alpha x beta y in
  let scaled u := if neqb beta nzero then nzero else nmul u beta in
  dok (length pos) y' /\
  (forall i, (i < length pos)%nat ->
     same (nth i (dden (length pos) y') nzero)
          (nadd (scaled (nth i (dden (length pos) y) nzero)) (nmul alpha (nth (nth i pos 0%nat) (dden nrows x) nzero)))).
Proof.
  intros P Hx Hy y' scaled. destruct (@trans_gen _ (num_ops lg) (num_laws lg) nrows pos junk alpha x beta y P Hx Hy) as (A & B).
  split; [exact A|]. intros i Hi. specialize (B i Hi). subst y'. cbn [num_ops t0] in *. rewrite B. apply added_num.
Qed.

Lemma Forall2_by_nth {A} (Q : A -> A -> Prop) (d : A) l : forall m, length l = length m -> (forall i, (i < length l)%nat -> Q (nth i l d) (nth i m d)) -> Forall2 Q l m.
Proof.
  induction l as [|a l IH]; intros [|b m] L K; try discriminate L; constructor.
  - apply (K 0%nat). simpl; lia.
  - apply IH; [simpl in L; lia|]. intros i Hi. apply (K (S i)). simpl; lia.
Qed.
(** Picking after placing is the identity: P^T P x = x, exactly, also on doubles
    (up to the sign of zero). The targets y, z may be uninitialised. *)
Theorem C25_pick_after_place_real lg nrows pos j1 j2 x y z : positions nrows pos -> dok (length pos) x ->
  dden (length pos) (e_trans (R_ops lg) pos j2 1 (e_mult (R_ops lg) nrows pos j1 1 x 0 y) 0 z) = dden (length pos) x.
Proof.
  intros P Hx. assert (Z : forall Q : Prop, 0 <> 0 -> Q) by (intros; lra).
  destruct (@mult_real lg nrows pos j1 1 x 0 y P Hx (Z _)) as (A & B & _).
  destruct (@trans_real lg nrows pos j2 1 _ 0 z P A (Z _)) as (C & D).
  apply nth_ext with (d := 0) (d' := 0); [rewrite !dden_length; auto|]. rewrite dden_length by exact C.
  intros i Hi. rewrite (D i Hi), (B i Hi). ring.
Qed.
Theorem C25_pick_after_place_double lg nrows pos j1 j2 x y z : positions nrows pos -> dok (length pos) x ->
  Forall2 same (dden (length pos) (e_trans (num_ops lg) pos j2 none (e_mult (num_ops lg) nrows pos j1 none x nzero y) nzero z)) (dden (length pos) x).
Proof.
  intros P Hx. set (O := num_ops lg). assert (EZ : neqb nzero nzero = true) by (apply neqb_iff; repeat split; apply nfin_nnan; reflexivity).
  assert (Z : forall Q : Prop, neqb nzero nzero = false -> Q) by (intros; congruence).
  destruct (@C25_mult_double lg nrows pos j1 none x nzero y P Hx (Z _)) as (A & B & _). fold O in A, B.
  set (mid := e_mult O nrows pos j1 none x nzero y) in *.
  destruct (@C25_trans_mult_double lg nrows pos j2 none mid nzero z P A (Z _)) as (C & D). fold O in C, D.
  set (w := e_trans O pos j2 none mid nzero z) in *.
  assert (T : forall a b c, same a b -> same b c -> same a c).
  { intros a b c [->|H1] [->|H2]; try (left; reflexivity); try (right; assumption).
    right. apply neqb_iff in H1. apply neqb_iff in H2. apply neqb_iff. intuition. congruence. }
  assert (Z0 : forall a b, same a b -> same (nadd nzero a) b).
  { intros a b H. apply (T _ a); [|exact H]. assert (nadd nzero a = nadd a nzero) as ->.
    { unfold nadd. destruct a as [s|s| |s m e H0]; try reflexivity. destruct s; reflexivity. }
    apply nadd_zero; [reflexivity|apply key_nzero]. }
  assert (K : forall i, (i < length pos)%nat -> same (nth i (dden (length pos) w) nzero) (nth i (dden (length pos) x) nzero)).
  { intros i Hi. specialize (D i Hi). specialize (B i Hi). rewrite EZ, nmul_none in D, B.
    eapply T; [exact D|]. apply Z0. eapply T; [exact B|]. apply Z0. left; reflexivity. }
  assert (LW : length (dden (length pos) w) = length (dden (length pos) x)) by (rewrite !dden_length; auto).
  assert (LX : length (dden (length pos) x) = length pos) by (rewrite dden_length; auto).
  apply (Forall2_by_nth same nzero _ _ LW). intros i Hi. apply K. congruence.
Qed.
(** P and P^T are adjoint: <P x, y> = <x, P^T y> *)
Theorem C25_adjoint pos nrows x y :
  sum_to nrows (fun j => times pos x j * nth j y 0) = sum_to (length pos) (fun i => nth i x 0 * trans_times pos nrows y i).
Proof.
  unfold times, trans_times.
  rewrite (@sum_to_ext nrows _ (fun j => sum_to (length pos) (fun i => nth j y 0 * (entry pos j i * nth i x 0)))) by (intros; rewrite sum_to_scal; ring).
  rewrite sum_to_swap. apply sum_to_ext. intros i _. rewrite <- sum_to_scal. apply sum_to_ext. intros; ring.
Qed.

(** Fused operations equal their definition: X <- X + alpha P S^-1 Z *)
Theorem C25_add_fused_real lg nrows pos junk js alpha s z x : positions nrows pos -> (forall n, length (junk n) = n) ->
  dok (length pos) s -> dok (length pos) z -> dok nrows x ->
  let quot := map2 Rdiv (dden (length pos) z) (dden (length pos) s) in
  let x' := e_addmsinvz (R_ops lg) nrows pos junk js alpha s z x in
  dok nrows x' /\ forall j, (j < nrows)%nat -> nth j (dden nrows x') 0 = nth j (dden nrows x) 0 + alpha * times pos quot j.
Proof.
  intros P J Hs Hz Hx quot x'. destruct (@addmsinvz_real lg nrows pos junk js alpha s z x P J Hs Hz Hx) as (A & B & C).
  split; [exact A|]. intros j Hj. subst x'. destruct (in_dec Nat.eq_dec j pos) as [I|N].
  - destruct (In_nth _ _ 0%nat I) as (i & Hi & E). subst j. rewrite (B i Hi), (@times_in _ _ _ _ P Hi). unfold quot.
    rewrite (@nth_map2 _ _ _ _ i 0 0); [reflexivity| |]; rewrite !dden_length; auto.
  - rewrite (C j Hj N), (@times_out _ _ _ N). ring.
Qed.
(** X <- S^-1 (R + alpha Z P^T D) *)
Theorem C25_sinv_fused_real lg nrows pos junk alpha s r z d x : positions nrows pos ->
  dok (length pos) s -> dok (length pos) r -> dok (length pos) z -> dok nrows d ->
  let m := length pos in
  let x' := e_sinv (R_ops lg) pos junk alpha s r z d x in
  dok m x' /\ forall i, (i < m)%nat -> nth i (dden m x') 0 =
     (nth i (dden m r) 0 + alpha * nth i (dden m z) 0 * trans_times pos nrows (dden nrows d) i) / nth i (dden m s) 0.
Proof.
  intros P Hs Hr Hz Hd m x'. destruct (@sinv_real lg nrows pos junk alpha s r z d x P Hs Hr Hz Hd) as (A & B).
  split; [exact A|]. intros i Hi. subst x'. rewrite (@trans_times_at _ _ _ _ P Hi). exact (B i Hi).
Qed.

(** Largest absolute values of rows and columns *)
Theorem C25_row_amax_real lg nrows pos junk ini v : positions nrows pos -> (ini = false -> dok nrows v) ->
  let v' := e_rowamax (R_ops lg) nrows pos junk ini v in
  let old j := if ini then 0 else nth j (dden nrows v) 0 in
  dok nrows v' /\
  (forall j, In j pos -> nth j (dden nrows v') 0 = Rmax (old j) 1) /\
  (forall j, (j < nrows)%nat -> ~ In j pos -> nth j (dden nrows v') 0 = old j).
Proof.
  intros [ND RG] Hv v' old. set (w := if ini then d_set 0 v else v).
  assert (Hw : dok nrows w) by (unfold w; destruct ini; [apply (set_rep nrows 0 v)|auto]).
  destruct (@values_ok _ (R_ops lg) nrows junk w Hw) as [L1 L2]. cbn [R_ops t0] in L2.
  assert (OLD : forall j, (j < nrows)%nat -> nth j (dden nrows w) 0 = old j).
  { intros j Hj. unfold w, old. destruct ini; [|reflexivity]. unfold d_set, dden; cbn [hom scal]. rewrite nth_repeat. reflexivity. }
  subst v'. unfold e_rowamax. cbn [R_ops t0]. fold w.
  match goal with |- dok _ (with_values _ ?l) /\ _ => assert (LL : length l = nrows); [|destruct (@with_ok _ nrows (d_values nrows junk w) _ LL) as [W1 W2]; rewrite W2; split; [exact W1|]] end.
  { rewrite scatter_length. exact L1. }
  split.
  - intros j I. destruct (In_nth _ _ 0%nat I) as (i & Hi & E). subst j.
    pose proof (@scatter_in _ (R_ops lg) R (fun u _ => tmax (R_ops lg) u (t1 (R_ops lg))) 0 pos ND (repeat 0 (length pos)) (vlist (d_values nrows junk w)) i (repeat_length _ _) Hi) as S0.
    cbn [R_ops t0] in S0. rewrite S0 by (rewrite L1; exact RG). rewrite L2, OLD by (apply RG, nth_In; auto).
    unfold tmax. cbn [R_ops tlt t1]. unfold Rmax. destruct (Rle_dec (old (nth i pos 0%nat)) 1) as [H|H].
    + destruct (Rlt_bool_spec (old (nth i pos 0%nat)) 1); lra.
    + rewrite Rlt_bool_false by lra. reflexivity.
  - intros j Hj N. pose proof (@scatter_out _ (R_ops lg) R (fun u _ => tmax (R_ops lg) u (t1 (R_ops lg))) pos j N (repeat 0 (length pos)) (vlist (d_values nrows junk w))) as S0.
    cbn [R_ops t0] in S0. rewrite S0, L2. apply OLD, Hj.
Qed.
Theorem C25_col_amax_real lg pos ini v : (ini = false -> dok (length pos) v) ->
  let v' := e_colamax (R_ops lg) pos ini v in
  dok (length pos) v' /\ forall i, (i < length pos)%nat -> nth i (dden (length pos) v') 0 = if ini then 1 else Rmax (nth i (dden (length pos) v) 0) 1.
Proof.
  intros Hv v'. subst v'. unfold e_colamax. destruct ini.
  - split; [apply (set_rep (length pos) 1)|]. intros i Hi. cbn [R_ops t0 t1]. unfold d_set, dden; cbn [hom scal].
    revert i Hi. induction (length pos); intros [|i] Hi; simpl; auto; try lia. apply IHn; lia.
  - specialize (Hv eq_refl). pose proof (set_rep (length pos) 1 (d_new (R_ops lg) (length pos) 0)) as S1.
    pose proof (emax_rep (R_ops lg) (length pos) _ _ _ _ S1 (@rep_self _ (R_ops lg) _ _ Hv)) as [K1 K2].
    split; [exact K1|]. intros i Hi. pose proof (@rep_nth _ (R_ops lg) _ _ _ i (conj K1 K2) Hi) as E. cbn [R_ops t0 t1] in *. rewrite E.
    unfold tmax. cbn [R_ops tlt]. unfold Rmax. destruct (Rle_dec (nth i (dden (length pos) v) 0) 1) as [H|H].
    + destruct (Rlt_bool_spec (nth i (dden (length pos) v) 0) 1); lra.
    + rewrite Rlt_bool_false by lra. reflexivity.
Qed.

(** The reverse map from large to small positions *)
Theorem C25_compressed_positions nrows pos : positions nrows pos ->
  length (compressed_pos nrows pos) = nrows /\
  (forall i, (i < length pos)%nat -> nth (nth i pos 0%nat) (compressed_pos nrows pos) (-1)%Z = Z.of_nat i) /\
  (forall j, ~ In j pos -> nth j (compressed_pos nrows pos) (-1)%Z = (-1)%Z).
Proof.
  intros [ND RG]. unfold compressed_pos. split; [rewrite fill_length; apply repeat_length|]. split.
  - intros i Hi. rewrite fill_in by (auto; rewrite repeat_length; auto). lia.
  - intros j N. rewrite fill_out by auto. apply nth_repeat.
Qed.

(** Non-vacuity: columns at rows 3 and 1 of four *)
Example C25_positions : positions 4 [3; 1]%nat.
Proof. split; [repeat constructor; simpl; intuition lia|]. simpl. intros p H. lia. Qed.
Example C25_compressed : compressed_pos 4 (expanded_pos [4; 2]%Z 1) = [-1; 1; -1; 0]%Z.
Proof. reflexivity. Qed.
Example C25_vectors : dok 2 (DV true false 0 (Some [5; 7])) /\ dok 4 (DV true true 2 None).
Proof.
  split.
  - split; [reflexivity|]. split; [intros _; exists [5; 7]; auto|]. intros l H. injection H as <-. reflexivity.
  - split; [reflexivity|]. split; [intros H; discriminate H|intros l H; discriminate H].
Qed.

Print Assumptions C25_mult_real.
Print Assumptions C25_mult_double.
Print Assumptions C25_compressed_positions.
