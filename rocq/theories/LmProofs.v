From Coq Require Import List Bool Arith Reals Lia Lra Psatz FunctionalExtensionality Classical.
From Flocq Require Import Core.Raux.
From Verif Require Import LmModel LmSpec.
Import ListNotations.
Local Open Scope R_scope.

(** ** finite sums *)
Lemma sumn_ext n f g : (forall i, (i < n)%nat -> f i = g i) -> sumn n f = sumn n g.
Proof. induction n; cbn; intros H; auto. rewrite IHn, (H n) by (intros; auto with arith). reflexivity. Qed.
Lemma sumn_zero n f : (forall i, (i < n)%nat -> f i = 0) -> sumn n f = 0.
Proof. induction n; cbn; intros H; auto. rewrite IHn, (H n) by (intros; auto with arith). ring. Qed.
Lemma sumn_plus n f g : sumn n (fun i => f i + g i) = sumn n f + sumn n g.
Proof. induction n; cbn; [ring|rewrite IHn; ring]. Qed.
Lemma sumn_minus n f g : sumn n (fun i => f i - g i) = sumn n f - sumn n g.
Proof. induction n; cbn; [ring|rewrite IHn; ring]. Qed.
Lemma sumn_mult n c f : sumn n (fun i => c * f i) = c * sumn n f.
Proof. induction n; cbn; [ring|rewrite IHn; ring]. Qed.
Lemma sumn_mult_r n c f : sumn n (fun i => f i * c) = sumn n f * c.
Proof. induction n; cbn; [ring|rewrite IHn; ring]. Qed.
Lemma sumn_swap n m f : sumn n (fun i => sumn m (fun j => f i j)) = sumn m (fun j => sumn n (fun i => f i j)).
Proof.
  induction n; cbn.
  - symmetry. apply sumn_zero. auto.
  - rewrite IHn, <- sumn_plus. reflexivity.
Qed.
Lemma sumn_delta n f j : (j < n)%nat -> sumn n (fun i => f i * delta i j) = f j.
Proof.
  unfold delta. induction n; intros H; [lia|]. cbn.
  destruct (Nat.eq_dec j n) as [->|Hn].
  - rewrite sumn_zero. { rewrite Nat.eqb_refl. ring. }
    intros i Hi. destruct (i =? n)%nat eqn:E; [apply Nat.eqb_eq in E; lia|ring].
  - rewrite IHn by lia. destruct (n =? j)%nat eqn:E; [apply Nat.eqb_eq in E; lia|ring].
Qed.
Lemma sumn_delta' n f j : (j < n)%nat -> sumn n (fun i => delta i j * f i) = f j.
Proof. intros H. rewrite <- (sumn_delta n f j H). apply sumn_ext. intros; ring. Qed.
Lemma delta_sym i j : delta i j = delta j i.
Proof. unfold delta. rewrite Nat.eqb_sym. reflexivity. Qed.
Lemma sumn_nonneg n f : (forall i, (i < n)%nat -> 0 <= f i) -> 0 <= sumn n f.
Proof. induction n; cbn; intros H; [lra|]. specialize (IHn (fun i Hi => H i (Nat.lt_lt_succ_r _ _ Hi))). specialize (H n (Nat.lt_succ_diag_r n)). lra. Qed.
Lemma sumn_nonneg_zero n f : (forall i, (i < n)%nat -> 0 <= f i) -> sumn n f = 0 -> forall i, (i < n)%nat -> f i = 0.
Proof.
  induction n; cbn; intros H E i Hi; [lia|].
  pose proof (sumn_nonneg n f (fun i Hi => H i (Nat.lt_lt_succ_r _ _ Hi))). pose proof (H n (Nat.lt_succ_diag_r n)).
  destruct (Nat.eq_dec i n) as [->|]; [lra|]. apply IHn; [intros; apply H; lia|lra|lia].
Qed.

(** ** dot product *)
Lemma dot_ext n u v u' v' : (forall i, (i < n)%nat -> u i = u' i) -> (forall i, (i < n)%nat -> v i = v' i) -> dot n u v = dot n u' v'.
Proof. intros H1 H2. apply sumn_ext. intros i Hi. rewrite H1, H2 by assumption. reflexivity. Qed.
Lemma dot_comm n u v : dot n u v = dot n v u.
Proof. apply sumn_ext. intros; ring. Qed.
Lemma dot_plus_r n u v w : dot n u (fun i => v i + w i) = dot n u v + dot n u w.
Proof. unfold dot. rewrite <- sumn_plus. apply sumn_ext. intros; ring. Qed.
Lemma dot_minus_r n u v w : dot n u (fun i => v i - w i) = dot n u v - dot n u w.
Proof. unfold dot. rewrite <- sumn_minus. apply sumn_ext. intros; ring. Qed.
Lemma dot_scal_r n c u v : dot n u (fun i => c * v i) = c * dot n u v.
Proof. unfold dot. rewrite <- sumn_mult. apply sumn_ext. intros; ring. Qed.
Lemma dot_sum_r n k u (c : nat -> R) (v : nat -> vec) : dot n u (fun i => sumn k (fun j => c j * v j i)) = sumn k (fun j => c j * dot n u (v j)).
Proof.
  unfold dot. rewrite (sumn_ext n _ (fun i => sumn k (fun j => u i * (c j * v j i)))) by (intros; rewrite sumn_mult; reflexivity).
  rewrite sumn_swap. apply sumn_ext. intros j _. rewrite <- sumn_mult. apply sumn_ext. intros; ring.
Qed.
Lemma dot_plus_l n u v w : dot n (fun i => v i + w i) u = dot n v u + dot n w u.
Proof. unfold dot. rewrite <- sumn_plus. apply sumn_ext. intros; ring. Qed.
Lemma dot_scal_l n c u v : dot n (fun i => c * v i) u = c * dot n v u.
Proof. unfold dot. rewrite <- sumn_mult. apply sumn_ext. intros; ring. Qed.
Lemma dot_sum_l n k u (c : nat -> R) (v : nat -> vec) : dot n (fun i => sumn k (fun j => c j * v j i)) u = sumn k (fun j => c j * dot n (v j) u).
Proof. rewrite dot_comm, dot_sum_r. apply sumn_ext. intros. rewrite dot_comm. reflexivity. Qed.
Lemma dot_self_nonneg n u : 0 <= dot n u u.
Proof. apply sumn_nonneg. intros. nra. Qed.
Lemma dot_self_zero n u : dot n u u = 0 -> forall i, (i < n)%nat -> u i = 0.
Proof. intros H i Hi. assert (E : u i * u i = 0); [|nra].
  apply (sumn_nonneg_zero n (fun i => u i * u i)); auto. intros. nra. Qed.
Lemma nrm2_sqr n u : nrm2 n u * nrm2 n u = dot n u u.
Proof. apply sqrt_sqrt. apply dot_self_nonneg. Qed.
Lemma nrm2_nonneg n u : 0 <= nrm2 n u. Proof. apply sqrt_pos. Qed.

(** ** the BFGS formula *)
Definition lin (n : nat) (B : vec -> vec) : Prop :=
  (forall x y, (forall i, (i < n)%nat -> x i = y i) -> forall i, (i < n)%nat -> B x i = B y i) /\
  (forall a x y i, (i < n)%nat -> B (fun j => x j + a * y j) i = B x i + a * B y i).
Lemma bfgs_step_lin n B p : lin n B -> lin n (bfgs_step n B p).
Proof.
  destruct p as [s y]. intros [H1 H2]. split; cbn.
  - intros x x' E i Hi. rewrite (H1 x x' E i Hi), (dot_ext n y x y x'), (dot_ext n (B s) x (B s) x') by auto. reflexivity.
  - intros a x z i Hi. rewrite H2 by assumption. rewrite !dot_plus_r, !dot_scal_r. unfold Rdiv. ring.
Qed.
Lemma bfgs_step_sym n B p : symmetric n B -> symmetric n (bfgs_step n B p).
Proof.
  destruct p as [s y]. intros HB x z. cbn.
  rewrite dot_minus_r, dot_plus_r, !dot_scal_r. 
  rewrite (dot_comm n (fun i => B x i + _ * y i - _ * B s i) z), dot_minus_r, dot_plus_r, !dot_scal_r.
  rewrite (HB x z), (dot_comm n (B x) z). rewrite (dot_comm n x y), (dot_comm n x (B s)), (dot_comm n z y), (dot_comm n z (B s)). unfold Rdiv. ring.
Qed.
Lemma bfgs_step_pd n B s y : lin n B -> symmetric n B -> positive_definite n B -> 0 < dot n s y ->
  positive_definite n (bfgs_step n B (s, y)).
Proof.
  intros [L1 L2] HS HP Hsy x Hx. cbn.
  rewrite dot_minus_r, dot_plus_r, !dot_scal_r.
  assert (Hs : exists i, (i < n)%nat /\ s i <> 0).
  { apply NNPP. intros C. assert (dot n s y = 0); [|lra]. apply sumn_zero. intros i Hi. destruct (Req_dec (s i) 0) as [->|E]; [ring|].
    exfalso. apply C. exists i. auto. }
  pose proof (HP s Hs) as Hss. set (t := dot n (B s) x / dot n s (B s)).
  assert (Et : dot n (B s) x = t * dot n s (B s)) by (unfold t; field; lra).
  set (u := fun j => x j + (- t) * s j).
  assert (Eu : dot n u (B u) = dot n x (B x) - t * t * dot n s (B s)).
  { rewrite (dot_ext n u (B u) u (fun i => B x i + (- t) * B s i)) by (auto; intros; apply L2; assumption).
    rewrite dot_comm. unfold u. rewrite dot_plus_r, dot_scal_r, !(dot_comm n _ x), !(dot_comm n _ s), !dot_plus_r, !dot_scal_r.
    rewrite (HS s x). rewrite (dot_comm n x (B s)). rewrite Et. ring. }
  replace (dot n x (B x) + dot n y x / dot n s y * dot n x y - t * dot n x (B s))
     with (dot n u (B u) + dot n x y * dot n x y / dot n s y).
  2:{ rewrite Eu, (dot_comm n y x), (dot_comm n x (B s)), Et. unfold Rdiv. ring. }
  destruct (classic (exists i, (i < n)%nat /\ u i <> 0)) as [Hu|Hu].
  - pose proof (HP u Hu). assert (0 <= dot n x y * dot n x y / dot n s y); [|lra].
    apply Rmult_le_pos; [nra|]. left. apply Rinv_0_lt_compat. assumption.
  - assert (Z : forall i, (i < n)%nat -> x i = t * s i).
    { intros i Hi. destruct (Req_dec (u i) 0) as [E|E]; [unfold u in E; lra|]. exfalso. apply Hu. exists i. auto. }
    assert (Ht : t <> 0). { destruct Hx as (i & Hi & E). intros Et0. apply E. rewrite (Z i Hi), Et0. ring. }
    rewrite (dot_ext n u (B u) (fun _ => 0) (B u)); auto.
    2:{ intros i Hi. unfold u. rewrite (Z i Hi). ring. }
    replace (dot n (fun _ => 0) (B u)) with 0 by (symmetry; apply sumn_zero; intros; ring).
    rewrite (dot_ext n x y (fun i => t * s i) y) by auto. rewrite dot_comm, dot_scal_r, (dot_comm n y s).
    assert (0 < t * t) by nra. replace (0 + t * dot n s y * (t * dot n s y) / dot n s y) with (t * t * dot n s y) by (field; lra). nra.
Qed.
Lemma bfgs_step_secant n B s y : dot n s y <> 0 -> dot n s (B s) <> 0 -> forall i, bfgs_step n B (s, y) s i = y i.
Proof. intros H1 H2 i. cbn. rewrite (dot_comm n y s), (dot_comm n (B s) s). field. auto. Qed.

Lemma bfgs_matrix_snoc n sigma h p : bfgs_matrix n sigma (h ++ [p]) = bfgs_step n (bfgs_matrix n sigma h) p.
Proof. unfold bfgs_matrix. rewrite fold_left_app. reflexivity. Qed.
Definition good (n : nat) (h : list (vec * vec)) : Prop := Forall (fun p => 0 < dot n (fst p) (snd p)) h.
Lemma bfgs_matrix_good n sigma h : 0 < sigma -> good n h ->
  lin n (bfgs_matrix n sigma h) /\ symmetric n (bfgs_matrix n sigma h) /\ positive_definite n (bfgs_matrix n sigma h).
Proof.
  intros Hs. induction h as [|p h IH] using rev_ind; intros Hg.
  - cbn. split; [split|split].
    + intros x y E i Hi. rewrite E by assumption. reflexivity.
    + intros. ring.
    + intros x y. rewrite dot_scal_r, (dot_comm n (fun i => sigma * x i) y), dot_scal_r, (dot_comm n y x). reflexivity.
    + intros x (i & Hi & E). rewrite dot_scal_r. pose proof (dot_self_nonneg n x).
      destruct (Req_dec (dot n x x) 0) as [Z|Z]; [exfalso; apply E; apply (dot_self_zero n x Z i Hi)|].
      apply Rmult_lt_0_compat; lra.
  - apply Forall_app in Hg. destruct Hg as [Hg Hp]. inversion_clear Hp. destruct (IH Hg) as (H1 & H2 & H3).
    rewrite bfgs_matrix_snoc. destruct p as [s y]. repeat split; try apply bfgs_step_lin; auto.
    + apply bfgs_step_sym; assumption.
    + apply bfgs_step_pd; assumption.
Qed.
