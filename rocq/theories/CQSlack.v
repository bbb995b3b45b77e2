(** CalculateSafeSlack element by element, and what the caches do to its answers. *)
From Coq Require Import Reals List Arith Bool Lra Lia ZArith.
From Verif Require Import CQModel CQSpec CQVec.
Import ListNotations.
Open Scope R_scope.

Definition smin (o : opts) (m : R) : R := if Req_EM_T (mach_eps o * Rmin 1 m) 0 then mach_tiny o else mach_eps o * Rmin 1 m.
Definition count (n : nat) (p : nat -> bool) : nat := length (filter p (seq 0 n)).
Definition low (a b : R) : bool := if Rlt_dec a b then true else false.

Lemma smin_pos o m : opts_ok o -> 0 <= m -> 0 < smin o m.
Proof.
  intros Ho Hm. pose proof (ok_tiny _ Ho). pose proof (ok_eps _ Ho). unfold smin. destruct (Req_EM_T _ 0); [lra|].
  assert (0 <= Rmin 1 m) by (apply Rmin_glb; lra). assert (0 <= mach_eps o * Rmin 1 m) by (apply Rmult_le_pos; lra). lra.
Qed.
Lemma Int_part_INR n : Int_part (INR n) = Z.of_nat n.
Proof.
  unfold Int_part. assert (H : up (INR n) = (Z.of_nat n + 1)%Z).
  { symmetry. apply tech_up; rewrite plus_IZR, <- INR_IZR_INZ; lra. }
  rewrite H. lia.
Qed.
Lemma sum_count n (p : nat -> bool) : sumn n (fun i => if p i then 1 else 0) = INR (count n p).
Proof.
  unfold count. induction n as [|n IH]; [reflexivity|]. cbn [sumn]. rewrite IH, seq_S, filter_app, app_length, plus_INR. f_equal.
  cbn. destruct (p n); reflexivity.
Qed.
Lemma safe_slack_is o m slack bound mult n f b z : opts_ok o -> 0 <= m ->
  vec_is slack n f -> vec_is bound n b -> vec_is mult n z ->
  vec_is (fst (safe_slack o m slack bound mult)) n
    (fun k => if Rlt_dec (f k) (smin o m) then Rmin (Rmax (m / z k) (smin o m)) (Rmax (f k) 0 + slack_move o * Rmax 1 (Rabs (b k))) else f k) /\
  snd (safe_slack o m slack bound mult) = Z.of_nat (count n (fun k => low (f k) (smin o m))).
Proof.
  intros Ho Hm Hs Hb Hz. unfold safe_slack. rewrite (vis_len _ _ _ Hs).
  pose proof (smin_pos o m Ho Hm) as Hp. cbv zeta. fold (smin o m).
  destruct (Nat.eqb_spec n 0) as [->|Hn].
  { split; [|reflexivity]. cbn [fst]. eapply vis_ext; [exact Hs|]. intros i Hi. lia. }
  destruct (vmin_is _ _ _ Hs) as [V1 (i0 & Hi0 & V2)]; [lia|].
  destruct (Rlt_dec (vmin slack) (smin o m)) as [Hlt|Hge].
  - set (sm := smin o m) in *.
    set (t := vmap (Rmult (-1)) (vmap2 Rmin (vmap sgn (vmap (fun a => a + - sm) slack)) (vset (dim (vmap sgn (vmap (fun a => a + - sm) slack))) 0))).
    assert (D0 : dim (vmap sgn (vmap (fun a => a + - sm) slack)) = n) by (apply (vis_len _ _ (fun i => sgn (f i + - sm))); apply vmap_is; apply (vmap_is (fun a => a + - sm)); exact Hs).
    assert (T : vec_is t n (fun k => if Rlt_dec (f k) sm then 1 else 0)).
    { eapply vis_ext; [apply vmap_is; apply vmap2_is; [apply vmap_is; apply (vmap_is (fun a => a + - sm)); exact Hs|rewrite D0; apply vset_is]|].
      intros k _. cbv beta. unfold sgn, Rmin. destruct (Rlt_dec (f k) sm).
      - destruct (Rlt_dec 0 (f k + - sm)); [lra|]. destruct (Rlt_dec (f k + - sm) 0); [|lra]. destruct (Rle_dec (-1) 0); lra.
      - destruct (Rlt_dec 0 (f k + - sm)); [destruct (Rle_dec 1 0); lra|]. destruct (Rlt_dec (f k + - sm) 0); [lra|]. destruct (Rle_dec 0 0); lra. }
    assert (Dt : dim t = n) by (apply (vis_len _ _ _ T)).
    rewrite Dt. cbn [fst snd]. split.
    + set (S' := vmap2 Rmax slack (vset n 0)). assert (S1 : vec_is S' n (fun k => Rmax (f k) 0)) by (apply (vmap2_is Rmax); [exact Hs|apply vset_is]).
      set (t2 := vmap2 (fun a b0 => a + -1 * b0) (vmap2 Rmax (vmap2 Rdiv (vset n m) mult) (vset n sm)) S').
      assert (T2 : vec_is t2 n (fun k => Rmax (m / z k) sm + -1 * Rmax (f k) 0)).
      { apply (vmap2_is (fun a b0 => a + -1 * b0)); [|exact S1]. apply (vmap2_is Rmax); [|apply vset_is]. apply (vmap2_is Rdiv); [apply vset_is|exact Hz]. }
      set (t3 := vmap2 (fun a b0 => a + 1 * b0) (vmap2 (fun a b0 => if Req_EM_T a 0 then a else a * b0) t t2) S').
      assert (T3 : vec_is t3 n (fun k => if Rlt_dec (f k) sm then Rmax (m / z k) sm else f k)).
      { eapply vis_ext; [apply (vmap2_is (fun a b0 => a + 1 * b0)); [apply (vmap2_is (fun a b0 => if Req_EM_T a 0 then a else a * b0)); [exact T|exact T2]|exact S1]|].
        intros k _. cbv beta. destruct (Rlt_dec (f k) sm).
        - destruct (Req_EM_T 1 0); [lra|]. ring.
        - destruct (Req_EM_T 0 0); [|lra]. rewrite Rmax_left by lra. ring. }
      rewrite (vis_len _ _ _ T3).
      eapply vis_ext; [apply (vmap2_is Rmin); [exact T3|]; apply (vmap2_is (fun a b0 => 1 * b0 + slack_move o * a)); [apply (vmap2_is Rmax); [apply vset_is|apply (vmap_is Rabs); exact Hb]|exact S1]|].
      intros k _. cbv beta. rewrite Rmult_1_l. destruct (Rlt_dec (f k) sm); [reflexivity|].
      rewrite (Rmax_left (f k) 0) by lra. apply Rmin_left.
      pose proof (ok_move _ Ho). assert (0 <= slack_move o * Rmax 1 (Rabs (b k))) by (apply Rmult_le_pos; [lra|pose proof (Rmax_l 1 (Rabs (b k))); lra]). lra.
    + rewrite (asum_is _ _ _ T). rewrite (sumn_ext _ _ (fun i => if low (f i) sm then 1 else 0)).
      * rewrite sum_count, Int_part_INR. reflexivity.
      * intros i _. unfold low. destruct (Rlt_dec (f i) sm); [apply Rabs_R1|apply Rabs_R0].
  - cbn [fst snd]. split.
    + eapply vis_ext; [exact Hs|]. intros k Hk. destruct (Rlt_dec (f k) (smin o m)) as [H|]; [|reflexivity]. specialize (V1 k Hk). lra.
    + unfold count. replace (filter _ _) with (@nil nat); [reflexivity|]. symmetry. assert (G : forall l, (forall k, In k l -> (k < n)%nat) -> filter (fun k => low (f k) (smin o m)) l = []).
      { induction l as [|k l IH]; intros Hl; [reflexivity|]. cbn. unfold low at 1. specialize (V1 k (Hl k (or_introl eq_refl))).
        destruct (Rlt_dec (f k) (smin o m)); [lra|]. apply IH. intros j Hj. apply Hl. right. exact Hj. }
      apply G. intros k Hk. apply in_seq in Hk. lia.
Qed.

(** * What a second question gives *)
Lemma look_hd {A} k (a : A) l : look ((k, a) :: l) k = Some a.
Proof. cbn. destruct (key_dec k k) as [|N]; [reflexivity|]. exfalso. apply N. reflexivity. Qed.
Lemma qv_again c1 c2 k comp s : (1 <= vsize c1)%nat ->
  look (vca (snd (qv c1 c2 k comp s)) c1) k = Some (fst (qv c1 c2 k comp s)).
Proof.
  intros Hc. unfold qv, qv2, vget, bind, gets. cbv beta iota.
  destruct (look (vca s c1) k) as [t|] eqn:E; [exact E|].
  match goal with |- context [let (a, s') := ?X in _] => destruct X as [r2 s1] end.
  match goal with |- context [match r2 with Some _ => _ | None => comp end ?S] => set (X := (match r2 with Some v => ret v | None => comp end) S) end.
  destruct X as [t s2]. unfold vadd, ret. cbn [fst snd vca set_vca]. destruct (vcid_dec c1 c1) as [_|N]; [|exfalso; apply N; reflexivity].
  destruct (vsize c1) as [|n]; [lia|]. cbn [firstn]. apply look_hd.
Qed.
Lemma qn_again c1 c2 k comp s : (1 <= nsize c1)%nat ->
  look (nca (snd (qn c1 c2 k comp s)) c1) k = Some (fst (qn c1 c2 k comp s)).
Proof.
  intros Hc. unfold qn, qn2, nget, bind, gets. cbv beta iota.
  destruct (look (nca s c1) k) as [t|] eqn:E; [exact E|].
  match goal with |- context [let (a, s') := ?X in _] => destruct X as [r2 s1] end.
  match goal with |- context [match r2 with Some _ => _ | None => comp end ?S] => set (X := (match r2 with Some v => ret v | None => comp end) S) end.
  destruct X as [t s2]. unfold nadd, ret. cbn [fst snd nca set_nca]. destruct (ncid_dec c1 c1) as [_|N]; [|exfalso; apply N; reflexivity].
  destruct (nsize c1) as [|n]; [lia|]. cbn [firstn]. apply look_hd.
Qed.
Lemma qv_hit c1 c2 k comp s t : look (vca s c1) k = Some t -> qv c1 c2 k comp s = (t, s).
Proof. intros E. unfold qv, qv2, vget, bind, gets. cbv beta iota. rewrite E. reflexivity. Qed.
Lemma qn_hit c1 c2 k comp s t : look (nca s c1) k = Some t -> qn c1 c2 k comp s = (t, s).
Proof. intros E. unfold qn, qn2, nget, bind, gets. cbv beta iota. rewrite E. reflexivity. Qed.
