(** The triplets represent the matrix. *)
From Coq Require Import List Bool Arith Reals Lia Lra.
From Flocq Require Import Raux.
From Verif Require Import Num VecModel VecSpec VecProofs VecLift VecReal ExpModel ExpSpec ExpProofs MatModel MatSpec MatVec MatLeaf MatProofs TripModel TripBlit TripProofs TripSpec.
Import ListNotations.
Local Open Scope R_scope.

Section Real.
Variable lg : R -> R.
Notation OR := (R_ops lg).
Notation triple := (nat * nat * R)%type.

Definition lsum {X} (f : X -> R) (l : list X) : R := fold_right Rplus 0 (map f l).
Lemma lsum_app {X} (f : X -> R) l1 l2 : lsum f (l1 ++ l2) = lsum f l1 + lsum f l2.
Proof. unfold lsum. induction l1; simpl; [ring|]. rewrite IHl1. ring. Qed.
Lemma lsum_map {X Y} (f : Y -> R) (g : X -> Y) l : lsum f (map g l) = lsum (fun x => f (g x)) l.
Proof. unfold lsum. rewrite map_map. reflexivity. Qed.
Lemma lsum_ext {X} (f g : X -> R) l : (forall x, In x l -> f x = g x) -> lsum f l = lsum g l.
Proof. unfold lsum. induction l; simpl; intros H; [reflexivity|]. rewrite H, IHl; auto. Qed.
Lemma lsum_seq f n : lsum f (seq 0 n) = sum_to n f.
Proof. induction n; [reflexivity|]. rewrite seq_S, lsum_app, IHn. unfold lsum. simpl. ring. Qed.
Lemma lsum_flat {X} (f : X -> R) (L : nat -> list X) k : lsum f (flat_map L (seq 0 k)) = sum_to k (fun i => lsum f (L i)).
Proof. induction k; [reflexivity|]. rewrite flat_seq_S, lsum_app, IHk. reflexivity. Qed.
Lemma lsum_scal {X} c (f : X -> R) l : lsum (fun x => c * f x) l = c * lsum f l.
Proof. unfold lsum. induction l; simpl; [ring|]. rewrite IHl. ring. Qed.
Lemma lsum_zero {X} (f : X -> R) l : (forall x, In x l -> f x = 0) -> lsum f l = 0.
Proof. unfold lsum. induction l; simpl; intros H; [reflexivity|]. rewrite H, IHl; auto. ring. Qed.

(** contribution of a triplet to entry (i, j) of a general / symmetric triplet matrix *)
Definition gen (i j : nat) (t : triple) : R := if (row t =? S i)%nat && (col t =? S j)%nat then val t else 0.
Definition sym (i j : nat) (t : triple) : R :=
  if (row t =? S i)%nat && (col t =? S j)%nat || (row t =? S j)%nat && (col t =? S i)%nat then val t else 0.
Lemma gent_den nr nc (l : list triple) i j : den (GenT nr nc (map row l) (map col l) (map val l)) i j = lsum (gen i j) l.
Proof.
  cbn [den]. rewrite map_length. rewrite <- lsum_seq. replace (lsum (gen i j) l) with (lsum (gen i j) (firstn (length l) l)) by (rewrite firstn_all; reflexivity). clear.
  assert (H : forall k, (k <= length l)%nat -> lsum (fun k => if (nth k (map row l) 0 =? S i)%nat && (nth k (map col l) 0 =? S j)%nat then nth k (map val l) 0 else 0) (seq 0 k) = lsum (gen i j) (firstn k l)).
  { induction k; intros Hk; [reflexivity|]. rewrite seq_S, lsum_app, IHk by lia.
    assert (E : firstn (S k) l = firstn k l ++ [nth k l (0%nat, 0%nat, 0)]).
    { clear - Hk. revert k Hk. induction l as [|x l IH]; intros [|k] H; simpl in *; try lia; [reflexivity|]. rewrite <- IH by lia. reflexivity. }
    rewrite E, lsum_app. f_equal. unfold lsum, gen. simpl. rewrite !(nth_mapl _ _ _ (0%nat, 0%nat, 0)) by lia. reflexivity. }
  apply H. lia.
Qed.
Lemma symt_den n (l : list triple) i j : den (SymT n (map row l) (map col l) (map val l)) i j = lsum (sym i j) l.
Proof.
  cbn [den]. rewrite map_length. rewrite <- lsum_seq. replace (lsum (sym i j) l) with (lsum (sym i j) (firstn (length l) l)) by (rewrite firstn_all; reflexivity). clear.
  assert (H : forall k, (k <= length l)%nat -> lsum (fun k => if (nth k (map row l) 0 =? S i)%nat && (nth k (map col l) 0 =? S j)%nat || (nth k (map row l) 0 =? S j)%nat && (nth k (map col l) 0 =? S i)%nat then nth k (map val l) 0 else 0) (seq 0 k) = lsum (sym i j) (firstn k l)).
  { induction k; intros Hk; [reflexivity|]. rewrite seq_S, lsum_app, IHk by lia.
    assert (E : firstn (S k) l = firstn k l ++ [nth k l (0%nat, 0%nat, 0)]).
    { clear - Hk. revert k Hk. induction l as [|x l IH]; intros [|k] H; simpl in *; try lia; [reflexivity|]. rewrite <- IH by lia. reflexivity. }
    rewrite E, lsum_app. f_equal. unfold lsum, sym. simpl. rewrite !(nth_mapl _ _ _ (0%nat, 0%nat, 0)) by lia. reflexivity. }
  apply H. lia.
Qed.

Notation trips := (trips OR).
Lemma smul_R s k v : smul OR s k v = v * optelem s (Nat.pred k).
Proof. unfold smul, optelem, elem. destruct s; cbn [R_ops t0 tmul]; ring. Qed.
Lemma zscale_R f v : zscale OR f v = v * f.
Proof.
  unfold zscale. cbn [R_ops t0 t1 tmul teq]. destruct (Req_bool f 0) eqn:E; cbn [negb]; [apply Req_bool_iff in E; subst; ring|].
  destruct (Req_bool f 1) eqn:E1; cbn [negb]; [apply Req_bool_iff in E1; subst; ring|reflexivity].
Qed.
Lemma full_known {T} (m : mat T) : full m -> known m.
Proof.
  induction m as [ | | | | | | | r m c IH| s m IH| nr nc k f t IH| n k f t IH| brs bcs sp c IH| | m IH| | | ] using mat_ind'; cbn [full known]; auto; try tauto.
  intros H i j Hi Hj. specialize (H i j Hi Hj). specialize (IH i j). destruct (c i j); auto.
Qed.
Lemma half_known {T} (m : mat T) : half m -> known m.
Proof.
  induction m as [ | | | | | | | | s m IH| | n k f t IH| | bd c IH| | | | ] using mat_ind'; cbn [half known]; try tauto; auto.
  intros H i j Hj Hi. specialize (H i j Hj Hi). specialize (IH i j). destruct (c i j); auto. destruct (Nat.eqb i j); [auto|]. apply full_known; auto.
Qed.

Lemma diag_sum n (d : nat -> R) i j : (i < n)%nat -> sum_to n (fun k => if (S k =? S i)%nat && (S k =? S j)%nat then d k else 0) = if (i =? j)%nat then d i else 0.
Proof.
  intros Hi. rewrite (@sum_to_one n _ i); auto.
  - simpl. rewrite Nat.eqb_refl. simpl. reflexivity.
  - intros k Hk N. simpl. apply Nat.eqb_neq in N. rewrite N. reflexivity.
Qed.
(** a triplet moved into a block *)
Lemma gen_shift ro co i j t : gen (ro + i) (co + j) (shift ro co t) = gen i j t.
Proof.
  unfold gen, shift, row, col, val. simpl. destruct t as [[r c] v]. simpl. replace (r + ro =? S (ro + i))%nat with (r =? S i)%nat; [replace (c + co =? S (co + j))%nat with (c =? S j)%nat; [reflexivity|]|].
  - destruct (Nat.eqb_spec c (S j)), (Nat.eqb_spec (c + co) (S (co + j))); auto; lia.
  - destruct (Nat.eqb_spec r (S i)), (Nat.eqb_spec (r + ro) (S (ro + i))); auto; lia.
Qed.
(** outside of the block it does not contribute *)
Lemma gen_out nr nc ro co i j t : (1 <= row t <= nr)%nat -> (1 <= col t <= nc)%nat -> (i < ro \/ ro + nr <= i \/ j < co \/ co + nc <= j)%nat -> gen i j (shift ro co t) = 0.
Proof.
  unfold gen, shift, row, col, val. simpl. destruct t as [[r c] v]. simpl. intros A B H.
  destruct (Nat.eqb_spec (r + ro) (S i)); simpl; auto. destruct (Nat.eqb_spec (c + co) (S j)); simpl; auto. lia.
Qed.
Lemma sym_gen i j t : row t <> col t \/ i <> j -> sym i j t = gen i j t + gen j i t.
Proof.
  unfold sym, gen. intros H. destruct (Nat.eqb_spec (row t) (S i)), (Nat.eqb_spec (col t) (S j)), (Nat.eqb_spec (row t) (S j)), (Nat.eqb_spec (col t) (S i)); simpl; try ring; lia.
Qed.
Lemma off_offs ls k : offs ls k = off ls k.
Proof. reflexivity. Qed.
Lemma off_mono ls a b : (a <= b)%nat -> (off ls a <= off ls b)%nat.
Proof.
  unfold off. revert a b; induction ls as [|s ls IH]; intros [|a] [|b] H; simpl; try lia. specialize (IH a b). lia.
Qed.
Lemma blocks_apart ls a b r : (a < length ls)%nat -> (b < length ls)%nat -> a <> b -> (r < sdim (nth a ls sp0))%nat ->
  (off ls a + r < off ls b \/ off ls b + sdim (nth b ls sp0) <= off ls a + r)%nat.
Proof.
  intros Ha Hb N Hr. destruct (Nat.lt_ge_cases a b).
  - left. assert (H1 := off_mono ls (S a) b ltac:(lia)). rewrite off_S in H1 by auto. lia.
  - right. assert (H1 := off_mono ls (S b) a ltac:(lia)). rewrite off_S in H1 by auto. lia.
Qed.

Theorem full_den m : forall sr sc i j, conf m sr sc -> full m -> (i < sdim sr)%nat -> (j < sdim sc)%nat -> lsum (gen i j) (trips m) = den m i j.
Proof.
  induction m as [nr nc ir jc vals | | d | n f0 | | | nr pos| r m c IH| s m IH| nr nc k f t IH| n k f t IH| brs bcs sp c IH| bd c IH| m IH| k vecs rs nc P| | ] using mat_ind';
    intros sr sc i j C F Hi Hj; pose proof C as C0; cbn [full] in F; try (destruct F; fail); cbn [TripProofs.trips den]; cbn [conf] in C.
  - rewrite lsum_map, lsum_seq. destruct C as (_ & _ & -> & _). reflexivity.
  - rewrite lsum_map, lsum_seq. destruct C as (<- & V). rewrite (vok_dim _ _ V). unfold gen, row, col, val. simpl fst; simpl snd. apply (diag_sum (sdim sr) (elem d)); auto.
  - rewrite lsum_map, lsum_seq. destruct C as (<- & V). unfold gen, row, col, val. simpl fst; simpl snd. apply (diag_sum n (fun _ => f0)); lia.
  - reflexivity.
  - reflexivity.
  - rewrite lsum_map, lsum_seq. destruct C as (-> & -> & _). simpl in Hj. unfold gen, row, col, val. simpl fst; simpl snd. rewrite (@sum_to_one (length pos) _ j); auto.
    + simpl. rewrite Nat.eqb_refl, andb_true_r. unfold entry. reflexivity.
    + intros k Hk N. simpl. apply Nat.eqb_neq in N. rewrite N, andb_false_r. reflexivity.
  - rewrite lsum_map. destruct C as (C & _). rewrite <- (IH sr sc i j) by auto. transitivity (lsum (fun t => (optelem r i * optelem c j) * gen i j t) (trips m)); [|rewrite lsum_scal; ring].
    apply lsum_ext. intros t _. unfold gen, onval, row, col, val; simpl. destruct (Nat.eqb_spec (fst (fst t)) (S i)) as [E|], (Nat.eqb_spec (snd (fst t)) (S j)) as [E2|]; simpl; try ring.
    rewrite !smul_R. unfold row, col. rewrite E, E2. simpl. ring.
  - rewrite lsum_map. destruct C as (<- & C & _). rewrite <- (IH sr sr i j) by auto. transitivity (lsum (fun t => (optelem s i * optelem s j) * gen i j t) (trips m)); [|rewrite lsum_scal; ring].
    apply lsum_ext. intros t _. unfold gen, onval, row, col, val; simpl. destruct (Nat.eqb_spec (fst (fst t)) (S i)) as [E|], (Nat.eqb_spec (snd (fst t)) (S j)) as [E2|]; simpl; try ring.
    rewrite !smul_R. unfold row, col. rewrite E, E2. simpl. ring.
  - rewrite lsum_flat. apply sum_to_ext. intros l Hl. rewrite lsum_map. rewrite <- (IH l sr sc i j) by (try apply C; auto). rewrite <- lsum_scal.
    apply lsum_ext. intros t1 _. unfold gen, onval, row, col, val; simpl fst; simpl snd. destruct ((fst (fst t1) =? S i)%nat && (snd (fst t1) =? S j)%nat); cbn [R_ops tmul]; ring.
  - rewrite lsum_flat. apply sum_to_ext. intros l Hl. rewrite lsum_map. rewrite <- (IH l sr sc i j) by (try apply C; auto). rewrite <- lsum_scal.
    apply lsum_ext. intros t1 _. unfold gen, onval, row, col, val; simpl fst; simpl snd. destruct ((fst (fst t1) =? S i)%nat && (snd (fst t1) =? S j)%nat); rewrite ?zscale_R; ring.
  - destruct C as (srs & scs & S1 & S2 & <- & <- & C). rewrite !map_length in *. rewrite (splits_dim _ _ _ S1) in Hi. rewrite (splits_dim _ _ _ S2) in Hj.
    destruct (locate_inv srs i Hi) as (bi & ri & Bi & Ri & ->). destruct (locate_inv scs j Hj) as (bj & rj & Bj & Rj & ->). rewrite !locate_off by auto.
    assert (OUT : forall a b, (a < length srs)%nat -> (b < length scs)%nat -> a <> bi \/ b <> bj ->
       lsum (gen (off srs bi + ri) (off scs bj + rj)) match c a b with Some m => map (shift (presum (map sdim srs) a) (presum (map sdim scs) b)) (trips m) | None => [] end = 0).
    { intros a b Ha Hb N. specialize (C a b Ha Hb). specialize (F a b Ha Hb). destruct (c a b) as [m|]; [|reflexivity]. rewrite lsum_map. apply lsum_zero. intros t Ht.
      destruct (trips_range OR m _ _ t (proj2 C) Ht) as [R1 R2]. rewrite !presum_offs; change offs with off. apply (gen_out _ _ _ _ _ _ _ R1 R2).
      destruct N as [N|N]; [assert (K := blocks_apart srs bi a ri Bi Ha ltac:(auto) Ri)|assert (K := blocks_apart scs bj b rj Bj Hb ltac:(auto) Rj)]; lia. }
    rewrite lsum_flat. rewrite (@sum_to_one (length srs) _ bi) by (auto; intros a Ha Na; rewrite lsum_flat; apply sum_to_zero; intros b Hb; apply OUT; auto).
    rewrite lsum_flat. rewrite (@sum_to_one (length scs) _ bj) by (auto; intros b Hb Nb; apply OUT; auto).
    specialize (C bi bj Bi Bj). specialize (F bi bj Bi Bj). specialize (IH bi bj). destruct (c bi bj) as [m|]; [|reflexivity]. rewrite lsum_map, !presum_offs; change offs with off.
    rewrite <- (IH _ _ ri rj (proj2 C) F Ri Rj). apply lsum_ext. intros t _. apply gen_shift.
  - rewrite lsum_map. rewrite <- (IH sc sr j i) by auto. apply lsum_ext. intros t _. unfold gen, row, col, val; simpl. rewrite andb_comm. reflexivity.
  - destruct C as (-> & EN & CV & CP). simpl in Hi. rewrite lsum_flat. rewrite (@sum_to_one k _ i); auto.
    + rewrite lsum_map, lsum_seq. unfold gen, row, col, val; simpl fst; simpl snd. 
      destruct (vecs i) as [v|].
      * destruct P as [[nr pos]|].
        -- destruct CP as (-> & -> & _). simpl sdim. apply sum_to_ext. intros l Hl. simpl. rewrite Nat.eqb_refl. unfold entry, elem. simpl. destruct (nth l pos 0 =? j)%nat; cbn [R_ops t0]; ring.
        -- subst sc. rewrite (@sum_to_one (sdim rs) _ j); auto.
           ++ simpl. rewrite !Nat.eqb_refl. reflexivity.
           ++ intros l Hl N. simpl. apply Nat.eqb_neq in N. rewrite N, andb_false_r. reflexivity.
      * apply sum_to_zero. intros l Hl. destruct (_ && _); reflexivity.
    + intros a Ha N. rewrite lsum_map. apply lsum_zero. intros l _. unfold gen, row, col, val; simpl fst; simpl snd. simpl Nat.eqb at 1. apply Nat.eqb_neq in N. rewrite N. reflexivity.
Qed.

Theorem half_den m : forall s i j, conf m s s -> half m -> (i < sdim s)%nat -> (j < sdim s)%nat -> lsum (sym i j) (trips m) = den m i j.
Proof.
  induction m as [ | n ir jc vals| d | n f0 | | | nr pos| r m c IH| s m IH| nr nc k f t IH| n k f t IH| brs bcs sp c IH| bd c IH| m IH| k vecs rs nc P| | ] using mat_ind';
    intros sr i j C F Hi Hj; pose proof C as C0; cbn [half] in F; try (destruct F; fail); cbn [TripProofs.trips den]; cbn [conf] in C.
  - rewrite lsum_map, lsum_seq. destruct C as (_ & _ & -> & _). reflexivity.
  - rewrite lsum_map, lsum_seq. destruct C as (_ & V). rewrite (vok_dim _ _ V). rewrite <- (diag_sum (sdim sr) (elem d) i j Hi). apply sum_to_ext. intros k Hk.
    unfold sym, row, col, val. simpl fst; simpl snd. rewrite (andb_comm (S k =? S j)%nat). rewrite orb_diag. reflexivity.
  - rewrite lsum_map, lsum_seq. destruct C as (_ & V). rewrite <- (diag_sum n (fun _ => f0) i j) by lia. apply sum_to_ext. intros k Hk.
    unfold sym, row, col, val. simpl fst; simpl snd. rewrite (andb_comm (S k =? S j)%nat). rewrite orb_diag. reflexivity.
  - reflexivity.
  - rewrite lsum_map. destruct C as (_ & C & _). rewrite <- (IH sr i j) by auto. transitivity (lsum (fun t => (optelem s i * optelem s j) * sym i j t) (trips m)); [|rewrite lsum_scal; ring].
    apply lsum_ext. intros t _. unfold sym, onval, row, col, val; simpl.
    destruct (Nat.eqb_spec (fst (fst t)) (S i)) as [E|], (Nat.eqb_spec (snd (fst t)) (S j)) as [E2|], (Nat.eqb_spec (fst (fst t)) (S j)) as [E3|], (Nat.eqb_spec (snd (fst t)) (S i)) as [E4|]; simpl; try ring; try (exfalso; lia);
    rewrite !smul_R; unfold row, col; rewrite ?E, ?E2, ?E3, ?E4; simpl; try ring.
  - rewrite lsum_flat. apply sum_to_ext. intros l Hl. rewrite lsum_map. rewrite <- (IH l sr i j) by (try apply C; auto). rewrite <- lsum_scal.
    apply lsum_ext. intros t1 _. unfold sym, onval, row, col, val; simpl fst; simpl snd. destruct (_ || _); rewrite ?zscale_R; ring.
  - destruct C as (ss & -> & _ & <- & C). rewrite !map_length in *.
    destruct (locate_inv ss i Hi) as (bi & ri & Bi & Ri & ->). destruct (locate_inv ss j Hj) as (bj & rj & Bj & Rj & ->). rewrite !locate_off by auto.
    set (I := (off ss bi + ri)%nat). set (J := (off ss bj + rj)%nat).
    set (cell := fun a b => match c a b with Some m => map (shift (presum (map sdim ss) a) (presum (map sdim ss) b)) (trips m) | None => [] end).
    assert (OUT : forall a b x y rx ry, (a < length ss)%nat -> (b <= a)%nat -> (x < length ss)%nat -> (y < length ss)%nat -> (rx < sdim (nth x ss sp0))%nat -> (ry < sdim (nth y ss sp0))%nat -> a <> x \/ b <> y ->
       forall t, In t (cell a b) -> gen (off ss x + rx) (off ss y + ry) t = 0).
    { intros a b x y rx ry Ha Hb Hx Hy Hrx Hry N t. unfold cell. specialize (C a b Hb Ha). destruct (c a b) as [m|]; [|intros []]. rewrite in_map_iff. intros (u & <- & Hu).
      destruct (trips_range OR m _ _ u (proj1 C) Hu) as [R1 R2]. rewrite !presum_offs; change offs with off. apply (gen_out _ _ _ _ _ _ _ R1 R2).
      destruct N as [N|N]; [assert (K := blocks_apart ss x a rx Hx Ha ltac:(auto) Hrx)|assert (K := blocks_apart ss y b ry Hy ltac:(lia) ltac:(auto) Hry)]; lia. }
    assert (SY : forall t, gen I J t = 0 -> gen J I t = 0 -> sym I J t = 0).
    { intros t. unfold sym, gen. destruct ((row t =? S I)%nat && (col t =? S J)%nat); simpl; auto. }
    assert (ONE : forall a b, (a < length ss)%nat -> (b <= a)%nat -> (forall a' b', (a' < length ss)%nat -> (b' <= a')%nat -> a' <> a \/ b' <> b -> lsum (sym I J) (cell a' b') = 0) ->
       lsum (sym I J) (flat_map (fun i => flat_map (fun j => cell i j) (seq 0 (S i))) (seq 0 (length ss))) = lsum (sym I J) (cell a b)).
    { intros a b Ha Hb Z. rewrite lsum_flat. rewrite (@sum_to_one (length ss) _ a); auto.
      - rewrite lsum_flat. apply (@sum_to_one (S a) (fun i => lsum (sym I J) (cell a i)) b); [lia|]. intros b' Hb' N. apply Z; auto; lia.
      - intros a' Ha' N. rewrite lsum_flat. apply sum_to_zero. intros b' Hb'. apply Z; auto; lia. }
    change (flat_map (fun i => flat_map (fun j => match c i j with Some b => map (shift (presum (map sdim ss) i) (presum (map sdim ss) j)) (trips b) | None => [] end) (seq 0 (S i))) (seq 0 (length ss)))
      with (flat_map (fun i => flat_map (fun j => cell i j) (seq 0 (S i))) (seq 0 (length ss))).
    destruct (Nat.lt_trichotomy bj bi) as [L|[E|L]].
    + replace (bj <=? bi)%nat with true by (symmetry; apply Nat.leb_le; lia). rewrite (ONE bi bj); [|auto|lia|intros a' b' Ha' Hb' N; apply lsum_zero; intros t Ht; apply SY; [apply (OUT a' b' bi bj ri rj)|apply (OUT a' b' bj bi rj ri)]; auto; lia].
      transitivity (lsum (gen I J) (cell bi bj)).
      { apply lsum_ext. intros t Ht. rewrite sym_gen.
        - rewrite (OUT bi bj bj bi rj ri) by (auto; lia). ring.
        - right. unfold I, J. assert (K := blocks_apart ss bi bj ri Bi Bj ltac:(lia) Ri). lia. }
      unfold cell. specialize (C bi bj ltac:(lia) Bi). specialize (F bi bj ltac:(lia) Bi). destruct (c bi bj) as [m|]; [|reflexivity].
      replace (bi =? bj)%nat with false in F by (symmetry; apply Nat.eqb_neq; lia). rewrite lsum_map, !presum_offs; change offs with off.
      rewrite <- (full_den m _ _ ri rj (proj1 C) F Ri Rj). apply lsum_ext. intros t _. apply gen_shift.
    + subst bj. rewrite Nat.leb_refl. rewrite (ONE bi bi); [|auto|lia|intros a' b' Ha' Hb' N; apply lsum_zero; intros t Ht; apply SY; [apply (OUT a' b' bi bi ri rj)|apply (OUT a' b' bi bi rj ri)]; auto; lia].
      unfold cell. specialize (C bi bi ltac:(lia) Bi). specialize (F bi bi ltac:(lia) Bi). specialize (IH bi bi). destruct (c bi bi) as [m|]; [|reflexivity].
      rewrite Nat.eqb_refl in F. rewrite lsum_map, !presum_offs; change offs with off.
      rewrite <- (IH _ ri rj (proj1 C) F Ri Rj). apply lsum_ext. intros t _. unfold sym, shift, row, col, val, I, J. destruct t as [[r cc] v]. simpl.
      assert (Q : forall x y, (x + off ss bi =? S (off ss bi + y))%nat = (x =? S y)%nat) by (intros x y; destruct (Nat.eqb_spec (x + off ss bi) (S (off ss bi + y))), (Nat.eqb_spec x (S y)); auto; lia).
      rewrite !Q. reflexivity.
    + replace (bj <=? bi)%nat with false by (symmetry; apply Nat.leb_gt; lia). rewrite (ONE bj bi); [|auto|lia|intros a' b' Ha' Hb' N; apply lsum_zero; intros t Ht; apply SY; [apply (OUT a' b' bi bj ri rj)|apply (OUT a' b' bj bi rj ri)]; auto; lia].
      transitivity (lsum (gen J I) (cell bj bi)).
      { apply lsum_ext. intros t Ht. rewrite sym_gen.
        - rewrite (OUT bj bi bi bj ri rj) by (auto; lia). ring.
        - right. unfold I, J. assert (K := blocks_apart ss bi bj ri Bi Bj ltac:(lia) Ri). lia. }
      unfold cell. specialize (C bj bi ltac:(lia) Bj). specialize (F bj bi ltac:(lia) Bj). destruct (c bj bi) as [m|]; [|reflexivity].
      replace (bj =? bi)%nat with false in F by (symmetry; apply Nat.eqb_neq; lia). rewrite lsum_map, !presum_offs; change offs with off.
      rewrite <- (full_den m _ _ rj ri (proj1 C) F Rj Ri). apply lsum_ext. intros t _. apply gen_shift.
Qed.
End Real.
