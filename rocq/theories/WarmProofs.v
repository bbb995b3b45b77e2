(** Lemmas for C91, C92. *)
From Coq Require Import Reals List Bool Lra Lia.
From Flocq Require Import Core.
From Verif Require Import Num VecModel VecReal InitModel InitSpec InitProofs InitReal InitProps WarmModel WarmSpec.
Import ListNotations.
Open Scope R_scope.

Lemma limited_cap (o : opts) z : limited (o_mmax o) z (cap_z o z).
Proof. unfold limited, cap_z. destruct (Rlt_dec 0 (o_mmax o)); split; intros; try lra; reflexivity. Qed.
Lemma limited_abs_cap (o : opts) y : limited_abs (o_mmax o) y (cap_y o y).
Proof.
  unfold limited_abs, cap_y, nearest. destruct (Rlt_dec 0 (o_mmax o)) as [H|H]; split; intros; try lra; try reflexivity.
  set (m := o_mmax o) in *.
  pose proof (Rmin_l y m); pose proof (Rmin_r y m). split.
  - split; [apply Rmax_r|]. apply Rmax_lub; lra.
  - intros z Z. destruct (Rle_dec y m) as [A|A].
    + rewrite (Rmin_left y m) by lra. destruct (Rle_dec (- m) y) as [B|B].
      * rewrite Rmax_left by lra. replace (y - y) with 0 by ring. rewrite Rabs_R0. apply Rabs_pos.
      * rewrite Rmax_right by lra. rewrite (Rabs_right (- m - y)) by lra. rewrite (Rabs_right (z - y)) by lra. lra.
    + rewrite (Rmin_right y m) by lra. rewrite Rmax_left by lra. rewrite (Rabs_left (m - y)) by lra. rewrite (Rabs_left1 (z - y)) by lra. lra.
Qed.

Lemma combine_map_r {A B} (f : A -> B) l : combine l (map f l) = map (fun a => (a, f a)) l.
Proof. induction l; cbn; [reflexivity|]. now rewrite IHl. Qed.
Lemma push_all lg tiny (o : opts) bp bf ws : 0 < tiny -> 0 < bp -> 0 < bf <= 1 / 2 ->
  push lg tiny o bp bf ws =
  map (fun w => W (pushed lg tiny bp bf (position w)) (w_lo w) (w_up w) (Rmax (w_zl w) (o_mpush o)) (Rmax (w_zu w) (o_mpush o))) ws.
Proof.
  intros. unfold push. rewrite push_map by assumption. rewrite map_map, combine_map_r, map_map. reflexivity.
Qed.
Lemma push_inside lg tiny (o : opts) bp bf ws : 0 < tiny -> 0 < bp -> 0 < bf <= 1 / 2 ->
  Forall (fun w => room bf tiny (position w)) ws ->
  Forall2 (moved_inside bp bf tiny (o_mpush o)) ws (push lg tiny o bp bf ws).
Proof.
  intros Ht Hp Hf H. rewrite push_all by assumption. apply Forall2_map_same. eapply Forall_impl; [|exact H].
  intros w Hr. unfold moved_inside. cbn [w_x w_lo w_up w_zl w_zu].
  pose proof (pushed_nearest lg tiny bp bf Ht Hp Hf (position w) Hr) as N. cbn [position v_lo v_up v_x] in N.
  split; [reflexivity|]. split; [reflexivity|]. split; [exact N|].
  split; [|split; [|split; reflexivity]].
  - intros l L. destruct N as [[N _] _]. specialize (N l L).
    assert (0 < wanted_low bp bf tiny l (w_up w)); [|lra]. apply wanted_low_pos; auto; intros u U; exact (Hr l u L U).
  - intros u U. destruct N as [[_ N] _]. specialize (N u U).
    assert (0 < wanted_upp bp bf tiny u (w_lo w)); [|lra]. apply wanted_upp_pos; auto; intros l L; exact (Hr l u L U).
Qed.

(** ** target mu *)
Definition same_bounds (w w' : wvar) : Prop := w_lo w' = w_lo w /\ w_up w' = w_up w.
Lemma target_low_bounds o ws : forall ss, Forall2 same_bounds ws (target_low o ws ss).
Proof.
  induction ws as [|w ws IH]; intros ss; cbn; [constructor|].
  destruct (w_lo w) eqn:L; [|constructor; [split; reflexivity|apply IH]].
  destruct ss as [|s ss]; [constructor; [split; reflexivity|apply IH]|].
  destruct (process 1 (o_target o) (w_x w) s (w_zl w)) as [x z].
  constructor; [|apply IH]. split; cbn; congruence.
Qed.
Lemma target_upp_bounds o ws : forall ss, Forall2 same_bounds ws (target_upp o ws ss).
Proof.
  induction ws as [|w ws IH]; intros ss; cbn; [constructor|].
  destruct (w_up w) eqn:L; [|constructor; [split; reflexivity|apply IH]].
  destruct ss as [|s ss]; [constructor; [split; reflexivity|apply IH]|].
  destruct (process (-1) (o_target o) (w_x w) s (w_zu w)) as [x z].
  constructor; [|apply IH]. split; cbn; congruence.
Qed.
Lemma Forall2_trans' {A} (P : A -> A -> Prop) (T : forall a b c, P a b -> P b c -> P a c) l1 l2 l3 :
  Forall2 P l1 l2 -> Forall2 P l2 l3 -> Forall2 P l1 l3.
Proof. intros H. revert l3. induction H; intros l3 K; inversion K; subst; constructor; eauto. Qed.
Lemma target_bounds lg eps dmin move mu o ws : Forall2 same_bounds ws (target lg eps dmin move mu o ws).
Proof.
  unfold target. destruct (Rlt_dec 0 (o_target o)).
  - eapply Forall2_trans'; [|apply target_low_bounds|apply target_upp_bounds].
    intros a b c [A B] [C D]. split; congruence.
  - induction ws; constructor; auto. split; reflexivity.
Qed.

Lemma adapt_matched t s z : 0 < t -> 0 < s -> let (s', z') := adapt t s z in matched t s z s' z'.
Proof.
  intros Ht Hs. unfold adapt, matched.
  assert (Q : 0 < sqrt t) by now apply sqrt_lt_R0.
  assert (QQ : sqrt t * sqrt t = t) by (apply sqrt_def; lra).
  destruct (Rlt_dec (10000 * z) s) as [A|A].
  - assert (P : 0 < t / s) by (apply Rdiv_lt_0_compat; lra).
    assert (PP : s * (t / s) = t) by (field; lra).
    destruct (Rlt_dec s (t / s)) as [B|B].
    + repeat split; auto. right; right. split; [reflexivity|]. split; intros [C D]; nra.
    + repeat split; auto. left. repeat split; auto. lra.
  - destruct (Rlt_dec (10000 * s) z) as [B|B].
    + assert (0 < z) by lra.
      assert (P : 0 < t / z) by (apply Rdiv_lt_0_compat; lra).
      assert (PP : t / z * z = t) by (field; lra).
      destruct (Rlt_dec z (t / z)) as [C|C].
      * repeat split; auto. right; right. split; [reflexivity|]. split; intros [D E]; nra.
      * repeat split; auto. right; left. repeat split; auto. lra.
    + repeat split; auto. right; right. split; [reflexivity|]. split; intros [D E]; lra.
Qed.

Section T.
Variables (lg : R -> R) (eps dmin move mu : R) (o : opts).
Hypotheses (He : 0 < eps) (Hmu : 0 < mu) (Hm : 0 < move) (Ht : 0 < o_target o).
Notation smin := (eps * Rmin 1 mu).
Lemma smin_pos : 0 < smin.
Proof. apply Rmult_lt_0_compat; [lra|]. apply Rmin_glb_lt; lra. Qed.
Lemma slacks_kept es : Forall (fun e => smin <= s_val e) es -> slacks lg eps dmin move mu es = map s_val es.
Proof.
  intros H. unfold slacks. rewrite (proj1 (safe_slack_R lg eps dmin mu move es He Hmu Hm)).
  induction H as [|e es E H IH]; cbn; [reflexivity|]. rewrite IH. f_equal. unfold safe_value. destruct (Rlt_dec _ _); lra.
Qed.
Definition low1 (w : wvar) : wvar :=
  match w_lo w with Some l => let (x, z) := process 1 (o_target o) (w_x w) (w_x w - l) (w_zl w) in W x (w_lo w) (w_up w) z (w_zu w) | None => w end.
Definition upp1 (w : wvar) : wvar :=
  match w_up w with Some u => let (x, z) := process (-1) (o_target o) (w_x w) (u - w_x w) (w_zu w) in W x (w_lo w) (w_up w) (w_zl w) z | None => w end.
Lemma target_low_map ws : target_low o ws (map s_val (lows lg ws)) = map low1 ws.
Proof.
  induction ws as [|w ws IH]; [reflexivity|]. cbn [target_low map]. unfold low1 at 1. unfold lows. cbn [flat_map]. fold (lows lg ws).
  destruct (w_lo w) as [l|] eqn:L; cbn [app map s_val].
  - change (slack_low (R_ops lg) (w_x w) l) with (- l + w_x w). replace (- l + w_x w) with (w_x w - l) by ring.
    destruct (process 1 (o_target o) (w_x w) (w_x w - l) (w_zl w)). now rewrite IH.
  - now rewrite IH.
Qed.
Lemma target_upp_map ws : target_upp o ws (map s_val (upps lg ws)) = map upp1 ws.
Proof.
  induction ws as [|w ws IH]; [reflexivity|]. cbn [target_upp map]. unfold upp1 at 1. unfold upps. cbn [flat_map]. fold (upps lg ws).
  destruct (w_up w) as [u|] eqn:L; cbn [app map s_val].
  - change (slack_upp (R_ops lg) (w_x w) u) with (u + - w_x w). replace (u + - w_x w) with (u - w_x w) by ring.
    destruct (process (-1) (o_target o) (w_x w) (u - w_x w) (w_zu w)). now rewrite IH.
  - now rewrite IH.
Qed.
Lemma Forall_flat_map {A B} (P : B -> Prop) (f : A -> list B) l : Forall (fun a => Forall P (f a)) l -> Forall P (flat_map f l).
Proof. induction 1; cbn; [constructor|]. apply Forall_app. split; assumption. Qed.
Lemma target_map ws : Forall (one_sided smin) ws -> target lg eps dmin move mu o ws = map (fun w => upp1 (low1 w)) ws.
Proof.
  intros H. unfold target. destruct (Rlt_dec 0 (o_target o)); [|lra]. cbv zeta.
  rewrite slacks_kept; [rewrite target_low_map|].
  - rewrite slacks_kept; [rewrite target_upp_map, map_map; reflexivity|].
    unfold upps. apply Forall_flat_map. apply Forall_map. eapply Forall_impl; [|exact H].
    intros w (A & B & C). unfold low1. destruct (w_lo w) as [l|] eqn:L.
    + destruct A as [A|A]; [discriminate|]. destruct (process _ _ _ _ _). cbn. rewrite A. constructor.
    + destruct (w_up w) as [u|] eqn:U; [|constructor]. constructor; [|constructor]. unfold slack_upp; cbn. specialize (C u eq_refl). lra.
  - unfold lows. apply Forall_flat_map. eapply Forall_impl; [|exact H].
    intros w (A & B & C). destruct (w_lo w) as [l|] eqn:L; [|constructor]. constructor; [|constructor]. unfold slack_low; cbn. specialize (B l eq_refl). lra.
Qed.
Lemma one_on_target w : one_sided smin w -> on_target (o_target o) w (upp1 (low1 w)).
Proof.
  intros (A & B & C). pose proof smin_pos. unfold on_target, upp1, low1.
  destruct (w_lo w) as [l|] eqn:L.
  - destruct A as [A|A]; [discriminate|]. specialize (B l eq_refl).
    unfold process. pose proof (adapt_matched (o_target o) (w_x w - l) (w_zl w) Ht ltac:(lra)) as M.
    destruct (adapt (o_target o) (w_x w - l) (w_zl w)) as [s' z']. rewrite A. cbn [w_x w_lo w_up w_zl w_zu].
    split; [congruence|]. split; [congruence|]. split; [|split; [discriminate|discriminate]].
    intros l' [= <-]. replace (w_x w + 1 * (s' - (w_x w - l)) - l) with s' by ring. exact M.
  - destruct (w_up w) as [u|] eqn:U.
    + specialize (C u eq_refl). unfold process.
      pose proof (adapt_matched (o_target o) (u - w_x w) (w_zu w) Ht ltac:(lra)) as M.
      destruct (adapt (o_target o) (u - w_x w) (w_zu w)) as [s' z']. cbn [w_x w_lo w_up w_zl w_zu].
      split; [congruence|]. split; [congruence|]. split; [discriminate|]. split; [|discriminate].
      intros u' [= <-]. replace (u - (w_x w + -1 * (s' - (u - w_x w)))) with s' by ring. exact M.
    + split; [congruence|]. split; [congruence|]. split; [discriminate|]. split; [discriminate|]. reflexivity.
Qed.
Lemma target_all ws : Forall (one_sided smin) ws -> Forall2 (on_target (o_target o)) ws (target lg eps dmin move mu o ws).
Proof.
  intros H. rewrite target_map by assumption. apply Forall2_map_same. eapply Forall_impl; [|exact H]. intros w. apply one_on_target.
Qed.
End T.
