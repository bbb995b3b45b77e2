(** Lemmas for C93, C94. *)
From Coq Require Import Reals List Arith Bool Lra Lia.
From Verif Require Import BremModel BremSpec.
Import ListNotations.
Open Scope R_scope.

Lemma tm_app r1 r2 y1 y2 j : length r1 = length y1 -> trans_mult (r1 ++ r2) (y1 ++ y2) j = trans_mult r1 y1 j + trans_mult r2 y2 j.
Proof.
  revert y1. induction r1 as [|r r1 IH]; intros [|v y1] L; cbn in *; try discriminate; [lra|]. rewrite IH by lia. lra.
Qed.
Lemma tm_unit pos y j : trans_mult (map unit pos) y j = place pos y j.
Proof.
  revert y. induction pos as [|i pos IH]; intros [|v y]; cbn; try reflexivity. rewrite IH. unfold unit. rewrite (Nat.eqb_sym j i).
  destruct (Nat.eqb i j); lra.
Qed.
Lemma place_opp pos v j : place pos (map Ropp v) j = - place pos v j.
Proof. revert v. induction pos as [|i pos IH]; intros [|a v]; cbn; try lra. rewrite IH. destruct (Nat.eqb i j); lra. Qed.
Lemma place_app p1 p2 v1 v2 j : length p1 = length v1 -> place (p1 ++ p2) (v1 ++ v2) j = place p1 v1 j + place p2 v2 j.
Proof. revert v1. induction p1 as [|i p1 IH]; intros [|a v1] L; cbn in *; try discriminate; [lra|]. rewrite IH by lia. lra. Qed.
Lemma place_out pos v j : ~ In j pos -> place pos v j = 0.
Proof.
  revert v. induction pos as [|i pos IH]; intros [|a v] H; cbn in *; try reflexivity. rewrite IH by tauto.
  destruct (Nat.eqb_spec i j); [tauto|lra].
Qed.
Lemma place_shift a v k : forall b, (b <= k)%nat -> place (map (fun k => a + k)%nat (seq b (length v))) v (a + k)%nat = nth (k - b) v 0.
Proof.
  induction v as [|z v IH]; intros b H; cbn; [now destruct (k - b)%nat|].
  destruct (Nat.eqb_spec (a + b) (a + k)) as [E|E].
  - replace (k - b)%nat with 0%nat by lia. rewrite place_out; [lra|]. rewrite in_map_iff. intros (y & E1 & I). apply in_seq in I. lia.
  - rewrite IH by lia. destruct (k - b)%nat as [|m] eqn:D; [lia|]. replace (k - S b)%nat with m by lia. lra.
Qed.

Definition gen (Q : nat -> R -> Prop) (pos : list nat) (x : list R) : Prop := forall k i, nth_error pos k = Some i -> Q k (nth i x 0).
Definition QE (ok : R -> R -> Prop) (vals : list R) (k : nat) (v : R) : Prop := forall b, nth_error vals k = Some b -> ok b v.
Definition QD (vals m : list R) (k : nat) (v : R) : Prop := forall b z, nth_error vals k = Some b -> nth_error m k = Some z -> z * (v - b) = 0.
Lemma each_gen ok pos vals x : each ok pos vals x <-> gen (QE ok vals) pos x.
Proof. unfold each, gen, QE. firstorder. Qed.
Lemma dot_gen pos vals x m : dot0 pos vals x m <-> gen (QD vals m) pos x.
Proof. unfold dot0, gen, QD. firstorder. Qed.
Lemma gen_ext Q Q' pos x : (forall k v, (k < length pos)%nat -> (Q k v <-> Q' k v)) -> (gen Q pos x <-> gen Q' pos x).
Proof. intros H. split; intros G k i E; apply (H k); try (apply nth_error_Some; congruence); now apply G. Qed.
Lemma gen_app Q p1 p2 x : gen Q (p1 ++ p2) x <-> gen Q p1 x /\ gen (fun k => Q (length p1 + k)%nat) p2 x.
Proof.
  split.
  - intros G. split; intros k i E; apply G.
    + rewrite nth_error_app1; [exact E|]. apply nth_error_Some. congruence.
    + rewrite nth_error_app2 by lia. now replace (length p1 + k - length p1)%nat with k by lia.
  - intros [G1 G2] k i E. destruct (Nat.lt_ge_cases k (length p1)) as [H|H].
    + apply G1. now rewrite nth_error_app1 in E.
    + rewrite nth_error_app2 in E by lia. specialize (G2 _ _ E). cbn in G2. now replace (length p1 + (k - length p1))%nat with k in G2 by lia.
Qed.
Lemma gen_low Q pos d e : Forall (fun i => (i < length d)%nat) pos -> (gen Q pos (d ++ e) <-> gen Q pos d).
Proof.
  intros H. assert (K : forall k i, nth_error pos k = Some i -> nth i (d ++ e) 0 = nth i d 0).
  { intros k i E. apply app_nth1. rewrite Forall_forall in H. apply H. eapply nth_error_In; eauto. }
  split; intros G k i E; specialize (G k i E); [rewrite <- (K k i E)|rewrite (K k i E)]; exact G.
Qed.
Lemma gen_shift Q n pos x d e : length d = n ->
  (gen Q (map (fun k => n + k)%nat (seq 0 (length pos))) (d ++ pick x pos ++ e) <-> gen Q pos x).
Proof.
  intros <-. set (L := map _ _).
  assert (K : forall k, (k < length pos)%nat -> nth_error L k = Some (length d + k)%nat).
  { intros k H. unfold L. rewrite (map_nth_error _ k (seq 0 (length pos)) (d := k)); [reflexivity|].
    rewrite (nth_error_nth' _ 0%nat) by (now rewrite seq_length). now rewrite seq_nth. }
  assert (V : forall k i, nth_error pos k = Some i -> nth (length d + k) (d ++ pick x pos ++ e) 0 = nth i x 0).
  { intros k i E. assert ((k < length pos)%nat) by (apply nth_error_Some; congruence).
    rewrite app_nth2 by lia. replace (length d + k - length d)%nat with k by lia.
    rewrite app_nth1 by (unfold pick; now rewrite map_length). unfold pick.
    apply nth_error_nth with (d := 0%nat) in E. rewrite <- E.
    rewrite (nth_indep _ 0 (nth 0%nat x 0)) by (now rewrite map_length). exact (map_nth (fun i => nth i x 0) pos 0%nat k). }
  assert (LL : length L = length pos) by (unfold L; now rewrite map_length, seq_length).
  split; intros G k i E.
  - rewrite <- (V k i E). apply G. apply K. apply nth_error_Some. congruence.
  - assert (H : (k < length pos)%nat) by (rewrite <- LL; apply nth_error_Some; congruence).
    rewrite (K k H) in E. injection E as <-. destruct (nth_error pos k) as [i|] eqn:F.
    + rewrite (V k i F). now apply G.
    + apply nth_error_None in F. lia.
Qed.
Lemma gen_app_l {A} (v1 v2 : list A) n k : length v1 = n -> (k < n)%nat -> nth_error (v1 ++ v2) k = nth_error v1 k.
Proof. intros <- H. now apply nth_error_app1. Qed.
Lemma gen_app_r {A} (v1 v2 : list A) n k : length v1 = n -> nth_error (v1 ++ v2) (n + k) = nth_error v2 k.
Proof. intros <-. rewrite nth_error_app2 by lia. now replace (length v1 + k - length v1)%nat with k by lia. Qed.

Lemma and_both (A B C D : Prop) : (A <-> C) -> (B <-> D) -> (A /\ B <-> C /\ D).
Proof. tauto. Qed.

Section Removed.
Variables (P : problem) (W : well_formed P).
Notation nl := (length (p_xlp P)).
Notation nu := (length (p_xup P)).
(** a condition on the bounds of d' is one on the bounds of d and one on the bounds of x *)
Lemma low_split Q x : gen Q (p_dlp (remove P)) (p_d (remove P) x) <->
  gen Q (p_dlp P) (p_d P x) /\ gen (fun k => Q (length (p_dlp P) + k)%nat) (p_xlp P) x.
Proof.
  cbn [remove p_dlp p_d]. rewrite gen_app. rewrite gen_low by (rewrite (w_d P W); exact (w_dlp P W)).
  rewrite gen_shift by apply (w_d P W). tauto.
Qed.
Lemma upp_split Q x : gen Q (p_dup (remove P)) (p_d (remove P) x) <->
  gen Q (p_dup P) (p_d P x) /\ gen (fun k => Q (length (p_dup P) + k)%nat) (p_xup P) x.
Proof.
  cbn [remove p_dup p_d]. rewrite gen_app. rewrite gen_low by (rewrite (w_d P W); exact (w_dup P W)).
  rewrite app_assoc. replace ((p_d P x ++ pick x (p_xlp P)) ++ pick x (p_xup P)) with ((p_d P x ++ pick x (p_xlp P)) ++ pick x (p_xup P) ++ []) by now rewrite app_nil_r.
  rewrite gen_shift; [tauto|]. rewrite app_length, (w_d P W). unfold pick. now rewrite map_length.
Qed.
Lemma each_low ok x : each ok (p_dlp (remove P)) (p_dl (remove P)) (p_d (remove P) x) <->
  each ok (p_dlp P) (p_dl P) (p_d P x) /\ each ok (p_xlp P) (p_xl P) x.
Proof.
  rewrite !each_gen, low_split. cbn [remove p_dl]. apply and_both; apply gen_ext; intros k v H; unfold QE.
  - rewrite (gen_app_l _ _ (length (p_dlp P))) by (try apply (w_dl P W); assumption). tauto.
  - rewrite (gen_app_r _ _ (length (p_dlp P))) by apply (w_dl P W). tauto.
Qed.
Lemma each_upp ok x : each ok (p_dup (remove P)) (p_du (remove P)) (p_d (remove P) x) <->
  each ok (p_dup P) (p_du P) (p_d P x) /\ each ok (p_xup P) (p_xu P) x.
Proof.
  rewrite !each_gen, upp_split. cbn [remove p_du]. apply and_both; apply gen_ext; intros k v H; unfold QE.
  - rewrite (gen_app_l _ _ (length (p_dup P))) by (try apply (w_du P W); assumption). tauto.
  - rewrite (gen_app_r _ _ (length (p_dup P))) by apply (w_du P W). tauto.
Qed.
Lemma dot_low x v w : length v = length (p_dlp P) ->
  dot0 (p_dlp (remove P)) (p_dl (remove P)) (p_d (remove P) x) (v ++ w) <->
  dot0 (p_dlp P) (p_dl P) (p_d P x) v /\ dot0 (p_xlp P) (p_xl P) x w.
Proof.
  intros L. rewrite !dot_gen, low_split. cbn [remove p_dl]. apply and_both; apply gen_ext; intros k u H; unfold QD.
  - rewrite (gen_app_l (p_dl P) _ (length (p_dlp P))), (gen_app_l v _ (length (p_dlp P))) by (try apply (w_dl P W); assumption). tauto.
  - rewrite (gen_app_r (p_dl P) _ (length (p_dlp P))), (gen_app_r v _ (length (p_dlp P))) by (try apply (w_dl P W); assumption). tauto.
Qed.
Lemma dot_upp x v w : length v = length (p_dup P) ->
  dot0 (p_dup (remove P)) (p_du (remove P)) (p_d (remove P) x) (v ++ w) <->
  dot0 (p_dup P) (p_du P) (p_d P x) v /\ dot0 (p_xup P) (p_xu P) x w.
Proof.
  intros L. rewrite !dot_gen, upp_split. cbn [remove p_du]. apply and_both; apply gen_ext; intros k u H; unfold QD.
  - rewrite (gen_app_l (p_du P) _ (length (p_dup P))), (gen_app_l v _ (length (p_dup P))) by (try apply (w_du P W); assumption). tauto.
  - rewrite (gen_app_r (p_du P) _ (length (p_dup P))), (gen_app_r v _ (length (p_dup P))) by (try apply (w_du P W); assumption). tauto.
Qed.
Lemma each_nil ok v x : each ok [] v x.
Proof. intros [|k] i b E; discriminate. Qed.
Lemma dot_nil v x m : dot0 [] v x m.
Proof. intros [|k] i b z E; discriminate. Qed.
Lemma same_feasible x : feasible (remove P) x <-> feasible P x.
Proof.
  unfold feasible. rewrite each_low, each_upp. cbn [remove p_c p_xlp p_xl p_xup p_xu]. pose proof (each_nil Rle [] x). pose proof (each_nil Rge [] x). tauto.
Qed.
Lemma nonneg_app v w : nonneg (v ++ w) <-> nonneg v /\ nonneg w.
Proof. apply Forall_app. Qed.

(** multipliers of the inequalities of the problem presented *)
Section Mult.
Variables (yd yl yu vl wl vu wu : list R).
Hypotheses (Ld : length yd = p_nd P) (Ll : length yl = nl) (Lu : length yu = nu)
  (L1 : length vl = length (p_dlp P)) (L2 : length wl = nl) (L3 : length vu = length (p_dup P)) (L4 : length wu = nu).
Lemma not_low k a b n : (k < p_nd P)%nat -> (p_nd P <= a)%nat -> ~ In k (map (fun k => a + k)%nat (seq b n)).
Proof. intros H A. rewrite in_map_iff. intros (y & E & _). lia. Qed.
Lemma not_old pos k : Forall (fun i => (i < p_nd P)%nat) pos -> (p_nd P <= k)%nat -> ~ In k pos.
Proof. intros F H I. rewrite Forall_forall in F. specialize (F _ I). lia. Qed.
Lemma slack_split :
  (forall k, (k < p_nd (remove P))%nat ->
     - nth k (yd ++ yl ++ yu) 0 - place (p_dlp (remove P)) (vl ++ wl) k + place (p_dup (remove P)) (vu ++ wu) k = 0) <->
  (forall k, (k < p_nd P)%nat -> - nth k yd 0 - place (p_dlp P) vl k + place (p_dup P) vu k = 0) /\ yl = map Ropp wl /\ yu = wu.
Proof.
  cbn [remove p_nd p_dlp p_dup].
  assert (A : forall k, (k < p_nd P)%nat ->
     - nth k (yd ++ yl ++ yu) 0 - place (p_dlp P ++ map (fun k => p_nd P + k)%nat (seq 0 nl)) (vl ++ wl) k +
     place (p_dup P ++ map (fun k => p_nd P + nl + k)%nat (seq 0 nu)) (vu ++ wu) k = - nth k yd 0 - place (p_dlp P) vl k + place (p_dup P) vu k).
  { intros k H. rewrite app_nth1 by lia. rewrite !place_app by lia. rewrite (place_out (map _ _) wl), (place_out (map _ _) wu); [lra| |]; apply not_low; lia. }
  assert (B : forall k, (k < nl)%nat ->
     - nth (p_nd P + k) (yd ++ yl ++ yu) 0 - place (p_dlp P ++ map (fun k => p_nd P + k)%nat (seq 0 nl)) (vl ++ wl) (p_nd P + k)%nat +
     place (p_dup P ++ map (fun k => p_nd P + nl + k)%nat (seq 0 nu)) (vu ++ wu) (p_nd P + k)%nat = - nth k yl 0 - nth k wl 0).
  { intros k H. rewrite app_nth2 by lia. rewrite Ld. replace (p_nd P + k - p_nd P)%nat with k by lia. rewrite app_nth1 by lia.
    rewrite !place_app by lia. rewrite (place_out (p_dlp P)), (place_out (p_dup P)) by (apply not_old; [apply W|lia]).
    rewrite <- L2, place_shift by lia. rewrite (place_out _ wu).
    - replace (k - 0)%nat with k by lia. lra.
    - rewrite in_map_iff. intros (y & E & _). lia. }
  assert (C : forall k, (k < nu)%nat ->
     - nth (p_nd P + nl + k) (yd ++ yl ++ yu) 0 - place (p_dlp P ++ map (fun k => p_nd P + k)%nat (seq 0 nl)) (vl ++ wl) (p_nd P + nl + k)%nat +
     place (p_dup P ++ map (fun k => p_nd P + nl + k)%nat (seq 0 nu)) (vu ++ wu) (p_nd P + nl + k)%nat = - nth k yu 0 + nth k wu 0).
  { intros k H. rewrite app_nth2 by lia. rewrite app_nth2 by lia. rewrite Ld, Ll. replace (p_nd P + nl + k - p_nd P - nl)%nat with k by lia.
    rewrite !place_app by lia. rewrite (place_out (p_dlp P)), (place_out (p_dup P)) by (apply not_old; [apply W|lia]).
    rewrite <- L4, place_shift by lia. rewrite (place_out _ wl).
    - replace (k - 0)%nat with k by lia. lra.
    - rewrite in_map_iff. intros (y & E & I). apply in_seq in I. lia. }
  split.
  - intros H. split; [|split].
    + intros k K. rewrite <- A by assumption. apply H. lia.
    + apply nth_ext with (d := 0) (d' := - 0); [rewrite map_length; lia|]. intros k K. rewrite map_nth.
      specialize (H (p_nd P + k)%nat ltac:(lia)). rewrite B in H by lia. lra.
    + apply nth_ext with (d := 0) (d' := 0); [lia|]. intros k K.
      specialize (H (p_nd P + nl + k)%nat ltac:(lia)). rewrite C in H by lia. lra.
  - intros (H & E1 & E2) k K.
    destruct (Nat.lt_ge_cases k (p_nd P)) as [K1|K1]; [rewrite A by assumption; now apply H|].
    destruct (Nat.lt_ge_cases k (p_nd P + nl)) as [K2|K2].
    + replace k with (p_nd P + (k - p_nd P))%nat by lia. rewrite B by lia. rewrite E1.
      replace (nth (k - p_nd P) (map Ropp wl) 0) with (- nth (k - p_nd P) wl 0); [lra|].
      rewrite (nth_indep (map Ropp wl) 0 (- 0)) by (rewrite map_length; lia). now rewrite map_nth.
    + replace k with (p_nd P + nl + (k - p_nd P - nl))%nat by lia. rewrite C by lia. rewrite E2. lra.
Qed.
Lemma grad_split x j : trans_mult (p_jd (remove P) x) (yd ++ yl ++ yu) j =
  trans_mult (p_jd P x) yd j + place (p_xlp P) yl j + place (p_xup P) yu j.
Proof.
  cbn [remove p_jd]. rewrite tm_app by (rewrite (w_jd P W); lia). rewrite tm_app by (rewrite map_length; lia). rewrite !tm_unit. lra.
Qed.
End Mult.
End Removed.

(** ** the check *)
Lemma fold_count pos k : forall a, fold_left (fun a i => if Nat.eqb i k then a + 1 else a) pos a = a + INR (count_occ Nat.eq_dec pos k).
Proof.
  induction pos as [|i pos IH]; intros a; cbn [fold_left count_occ]; [cbn; lra|]. rewrite IH.
  destruct (Nat.eqb_spec i k) as [E|E]; destruct (Nat.eq_dec i k); try contradiction; [rewrite S_INR; lra|lra].
Qed.
Lemma amax_ge l : forall m, m <= fold_left (fun m v => Rmax m (Rabs v)) l m.
Proof. induction l as [|v l IH]; intros m; cbn; [lra|]. pose proof (IH (Rmax m (Rabs v))). pose proof (Rmax_l m (Rabs v)). lra. Qed.
Lemma amax_le l : forall m v, In v l -> v <= fold_left (fun m v => Rmax m (Rabs v)) l m.
Proof.
  induction l as [|a l IH]; intros m v H; [destruct H|]; destruct H as [E|I]; cbn.
  - subst. pose proof (amax_ge l (Rmax m (Rabs v))). pose proof (Rmax_r m (Rabs v)). pose proof (Rle_abs v). lra.
  - now apply IH.
Qed.
Lemma min_le l : forall m, fold_left Rmin l m <= m.
Proof. induction l as [|v l IH]; intros m; cbn; [lra|]. pose proof (IH (Rmin m v)). pose proof (Rmin_l m v). lra. Qed.
Lemma min_in l : forall m v, In v l -> fold_left Rmin l m <= v.
Proof.
  induction l as [|a l IH]; intros m v H; [destruct H|]; destruct H as [E|I]; cbn.
  - subst. pose proof (min_le l (Rmin m v)). pose proof (Rmin_r m v). lra.
  - now apply IH.
Qed.
Lemma vmin_in l v : In v l -> vmin l <= v.
Proof. destruct l as [|a l]; [intros []|]. intros [E|I]; cbn; [subst; apply min_le|now apply min_in]. Qed.
Lemma amax_ones l : l <> [] -> Forall (fun v => v = 1) l -> amax l = 1.
Proof.
  intros N H. destruct H as [|v l E H]; [congruence|]. unfold amax. cbn. subst v. rewrite Rabs_R1, Rmax_right by lra.
  induction H as [|v l E H IH]; cbn; [reflexivity|]. subst v. rewrite Rabs_R1, Rmax_left by lra. apply IH. discriminate.
Qed.
Lemma vmin_ones l : l <> [] -> Forall (fun v => v = 1) l -> vmin l = 1.
Proof.
  intros N H. destruct H as [|v l E H]; [congruence|]. cbn. subst v.
  induction H as [|v l E H IH]; cbn; [reflexivity|]. subst v. rewrite Rmin_left by lra. apply IH. discriminate.
Qed.
