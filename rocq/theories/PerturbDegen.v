(** Invariant behind C15. *)
From Coq Require Import List Bool ZArith Reals Lra Lia.
From Flocq Require Import Core BinarySingleNaN.
From Verif Require Import Num PerturbModel PerturbSpec PerturbProofs.
Import ListNotations.
Open Scope R_scope.

Section Degen.
Variable o : popts.
Hypothesis V : valid_opts o.
Hypothesis Mp : 0 < key (o_min o).

Definition counts (h : handler) : bool :=
  match status h with
  | GT0_EQ0 => is_nyd (jac h)
  | EQ0_GT0 => is_nyd (hess h)
  | GT0_GT0 => true
  | _ => false
  end.
Definition consistent (h : handler) : Prop :=
  ~ (hess h = NYD /\ jac h = Degen) /\ ~ (jac h = NYD /\ hess h = Degen).
Definition three (h : handler) : Prop :=
  (hess h = Degen -> 3 <= iters h)%nat /\ (jac h = Degen -> 3 <= iters h)%nat.
Definition cnz (h : handler) : Prop :=
  status h = GT0_EQ0 \/ status h = GT0_GT0 \/ jac h = Degen -> neqb (c_curr h) nzero = false.
Definition xok (h : handler) : Prop := ok0 (x_last h) /\ nfin (x_curr h) = true /\ 0 <= key (x_curr h).

Lemma fin_iters h : (iters (finalize_test h) <= iters h + (if counts h then 1 else 0))%nat
  /\ (iters h <= iters (finalize_test h))%nat.
Proof.
  unfold finalize_test, counts.
  destruct h as [a b c d e [| |] [| |] it [| | | |]]; simpl;
  repeat match goal with |- context[if ?b then _ else _] => destruct b end; simpl; lia.
Qed.
Lemma fin_three h : three h -> three (finalize_test h).
Proof.
  unfold three, finalize_test, degen_iters_max.
  destruct h as [a b c d e [| |] [| |] it [| | | |]]; cbn [status hess jac iters is_nyd andb];
  repeat match goal with |- context[Nat.leb ?x ?y] => destruct (Nat.leb_spec x y) end;
  cbn [hess jac iters]; intros [A B]; split; intros E; try discriminate; try lia;
  try (specialize (A eq_refl); lia); try (specialize (B eq_refl); lia).
Qed.
Lemma fin_consistent h : consistent h -> consistent (finalize_test h).
Proof.
  unfold consistent, finalize_test, degen_iters_max.
  destruct h as [a b c d e [| |] [| |] it [| | | |]]; cbn [status hess jac iters is_nyd andb];
  repeat match goal with |- context[Nat.leb ?x ?y] => destruct (Nat.leb_spec x y) end;
  cbn [hess jac iters]; intros [A B]; split; intros [E F]; try discriminate; auto.
Qed.
Lemma fin_cnz h : cnz h -> cnz (finalize_test h).
Proof.
  unfold cnz, finalize_test, degen_iters_max.
  destruct h as [a b c d e [| |] [| |] it [| | | |]]; cbn [status hess jac iters is_nyd andb c_curr];
  repeat match goal with |- context[Nat.leb ?x ?y] => destruct (Nat.leb_spec x y) end;
  cbn [hess jac iters status c_curr]; intros A; intros [E|[E|E]]; try discriminate; auto.
Qed.
Lemma fin_xok h : xok h -> xok (finalize_test h).
Proof.
  unfold xok. destruct (finalize_fields h) as (-> & -> & _). auto.
Qed.

Lemma next_pos h : xok h -> 0 < key (next_x o h).
Proof.
  intros (A & F & K). destruct V as [Vmax Vmin Vfirst Vinc Vdec Vinit]. unfold next_x.
  destruct (neqb (x_curr h) nzero) eqn:E.
  - destruct (neqb (x_last h) nzero); [tauto|].
    assert (O : ok0 (nmul (x_last h) (o_dec o))) by (apply ok_mul_r; tauto).
    rewrite nmax_key; [|apply nfin_nnan; tauto|apply O].
    eapply Rlt_le_trans; [exact Mp|apply Rmax_l].
  - apply neqb_false in E; auto using nfin_nnan. rewrite key_nzero in E.
    assert (G : forall a, nfin a = true /\ 1 < key a -> 0 < key (nmul a (x_curr h))).
    { intros a [Fa La]. destruct (nmul_fin a (x_curr h) Fa F) as [_ ->].
      apply Rlt_le_trans with (key (x_curr h)); [lra|]. apply fl_ge_key; auto using nfin_nnan. nra. }
    destruct (_ || _); apply G; auto.
Qed.

Lemma nz_of_pos x : 0 < key x -> neqb x nzero = false.
Proof.
  intros P. destruct (neqb x nzero) eqn:E; auto. apply neqb_iff in E. rewrite key_nzero in E. lra.
Qed.

(** what a successful get_deltas gives *)
Lemma get_good h v r h1 v1 : xok h -> get_deltas o h v = (r, h1, v1) ->
  status h1 = status h /\ hess h1 = hess h /\ jac h1 = jac h /\ iters h1 = iters h /\ c_curr h1 = c_curr h /\
  (r = false -> v1 = v /\ x_last h1 = nzero /\ ok0 (x_curr h1)) /\
  (r = true -> xok h1 /\ neqb (x_curr h1) nzero = false /\ dx v1 = Some (x_curr h1) /\ dc v1 = Some (c_curr h1)).
Proof.
  intros X E. pose proof (next_pos h X) as P.
  assert (O : ok0 (next_x o h)).
  { apply next_ok; auto; [apply X|]. destruct X as (_ & F & K). split; auto using nfin_nnan. }
  apply get_deltas_spec in E. destruct E as [(-> & G & -> & ->)|(-> & -> & ->)]; simpl.
  - assert (X1 : nfin (next_x o h) = true) by (eapply ok_le_max; eauto; apply (vo_max _ V)).
    do 5 (split; [reflexivity|]). split; [discriminate|]. intros _.
    split; [split; [apply X|split; simpl; auto; lra]|]. split; auto. apply nz_of_pos; auto.
  - repeat split; auto; try discriminate; apply O.
Qed.

Definition J (s : rstate) : Prop :=
  (iters (r_h s) <= r_obs s)%nat /\ three (r_h s) /\ consistent (r_h s) /\
  (counts (r_h s) = true -> nonzero (r_last s) = true) /\
  wk (r_h s) /\
  (r_live s = true -> xok (r_h s) /\ cnz (r_h s) /\
     dx (r_last s) = Some (x_curr (r_h s)) /\ dc (r_last s) = Some (c_curr (r_h s))).

Ltac jsplit := unfold J; cbn [r_h r_obs r_last r_live]; split; [|split; [|split; [|split; [|split]]]].

Lemma J_init : J (r_init o).
Proof.
  unfold J, r_init, three, consistent, counts, wk; simpl.
  repeat split; try lia; try discriminate; try apply ok_zero; destruct (o_always o); try discriminate;
   intros [? ?]; discriminate.
Qed.

Lemma nz_x v x : dx v = Some x -> neqb x nzero = false -> nonzero v = true.
Proof. unfold nonzero. intros -> E. simpl. rewrite E. reflexivity. Qed.
Lemma nz_c v c : dc v = Some c -> neqb c nzero = false -> nonzero v = true.
Proof. unfold nonzero. intros -> E. simpl. rewrite E. apply orb_true_r. Qed.

Lemma wk_of_xok h : xok h -> wk h.
Proof. intros (A & F & K). split; auto. split; auto using nfin_nnan. Qed.

(* a successful or failed get inside Singular *)
Lemma J_get (s : rstate) h' t r h1 v1 :
  (iters h' <= r_obs s)%nat -> three h' -> consistent h' -> xok h' ->
  (r_live s = true) ->
  (counts (r_h s) = true -> nonzero (r_last s) = true) ->
  status h' = status (r_h s) -> hess h' = hess (r_h s) -> jac h' = jac (r_h s) ->
  (t = GT0_EQ0 \/ t = GT0_GT0 \/ jac h' = Degen -> neqb (c_curr h') nzero = false) ->
  (let '(r, h1, v1) := get_deltas o h' (r_last s) in
   if negb r then (false, h1, v1) else (true, set_status h1 t, current h1)) = (r, h1, v1) ->
  J (RState h1 r (if r then v1 else r_last s) (r_obs s)).
Proof.
  intros I0 T C X L Cn S1 S2 S3 CN.
  destruct (get_deltas o h' (r_last s)) as [[r5 h5] v5] eqn:E.
  destruct (get_good _ _ _ _ _ X E) as (G1 & G2 & G3 & G4 & G5 & G6 & G7).
  pose proof (get_wk o V _ _ _ _ _ (wk_of_xok _ X) E) as W.
  destruct r5; cbn [negb]; intros E'; inversion E'; subst; clear E'.
  - destruct (G7 eq_refl) as (X5 & N5 & D5 & D6).
    jsplit.
    + simpl. lia.
    + unfold three in *. simpl. rewrite G2, G3, G4. exact T.
    + unfold consistent in *. simpl. rewrite G2, G3. exact C.
    + intros _. eapply nz_x; [reflexivity|exact N5].
    + exact W.
    + intros _. split; [exact X5|]. split; [|split; reflexivity].
      unfold cnz. simpl. rewrite G3, G5. exact CN.
  - jsplit; auto; try discriminate.
    + lia.
    + unfold three in *. rewrite G2, G3, G4. exact T.
    + unfold consistent in *. rewrite G2, G3. exact C.
    + unfold counts in *. rewrite G1, G2, G3, S1, S2, S3. exact Cn.
Qed.

Lemma J_plain (s : rstate) h1 :
  (iters h1 <= r_obs s)%nat -> three h1 -> consistent h1 -> xok h1 -> cnz h1 ->
  (counts h1 = true -> nonzero (current h1) = true) ->
  J (RState h1 true (current h1) (r_obs s)).
Proof.
  intros. jsplit; auto. apply wk_of_xok; auto.
Qed.

Lemma J_sing s cd r h1 v1 : cd_pos cd -> J s -> r_live s = true ->
  perturb_singular o cd (r_h s) (r_last s) = (r, h1, v1) ->
  J (RState h1 r (if r then v1 else r_last s) (r_obs s)).
Proof.
  intros P (I0 & T & C & Cn & W & L) Lv. destruct (L Lv) as (X & CN & D1 & D2). clear L.
  pose proof (cd_nz _ P) as CZ.
  unfold perturb_singular. cbv zeta.
  set (h := r_h s) in *.
  destruct (is_nyd (hess h) || is_nyd (jac h)) eqn:U.
  - assert (JD : jac h <> Degen).
    { intros E. rewrite E in U. simpl in U. rewrite orb_false_r in U. destruct C as [C _]. apply C. split; auto. destruct (hess h); simpl in U; congruence. }
    destruct (status h) eqn:St.
    + intros E; inversion E; subst; clear E. apply J_plain; auto. unfold counts. rewrite St. discriminate.
    + destruct (is_nyd (jac h)) eqn:NJ.
      * intros E; inversion E; subst; clear E. apply J_plain; auto.
        -- unfold cnz. simpl. auto.
        -- intros _. eapply nz_c; [reflexivity|]. simpl. exact CZ.
      * intros E. eapply (J_get s h EQ0_GT0); eauto. intros [?|[?|?]]; congruence.
    + destruct (negb (o_always o)).
      * intros E. eapply (J_get s (set_cd h nzero) EQ0_GT0); eauto. simpl. intros [?|[?|?]]; congruence.
      * intros E. eapply (J_get s h GT0_GT0); eauto.
    + intros E. eapply (J_get s (set_cd h cd) GT0_GT0); eauto.
    + intros E. eapply (J_get s h GT0_GT0); eauto.
  - destruct (ngt (c_curr h) nzero).
    + destruct (get_deltas o h (r_last s)) as [[r5 h5] v5] eqn:G.
      intros E. eapply (J_get s h (status h)); eauto.
      { rewrite G. destruct (get_good _ _ _ _ _ X G) as (G1 & _).
        destruct r5; simpl in *; inversion E; subst; auto. rewrite <- G1.
        destruct h1; reflexivity. }
    + intros E; inversion E; subst; clear E. apply J_plain; auto.
      * unfold cnz; simpl; auto.
      * intros _. eapply nz_c; [reflexivity|]. simpl. exact CZ.
Qed.

Lemma obs_fin s c : J s -> c <> Singular -> (iters (finalize_test (r_h s)) <= observe c s)%nat.
Proof.
  intros (I0 & T & C & Cn & _) N. destruct (fin_iters (r_h s)) as [F _].
  assert (E : observe c s = if nonzero (r_last s) then S (r_obs s) else r_obs s) by (destruct c; [reflexivity|congruence|reflexivity]).
  rewrite E. destruct (counts (r_h s)) eqn:K.
  - rewrite (Cn eq_refl). lia.
  - destruct (nonzero (r_last s)); lia.
Qed.

Lemma counts_fin h : counts (finalize_test h) = true -> counts h = true.
Proof.
  unfold finalize_test, counts.
  destruct h as [a b c d e [| |] [| |] it [| | | |]]; cbn [status hess jac iters is_nyd andb];
  repeat match goal with |- context[Nat.leb ?x ?y] => destruct (Nat.leb_spec x y) end; simpl; auto; discriminate.
Qed.

Lemma J_inertia s cd r h1 v1 : cd_pos cd -> J s -> r_live s = true ->
  perturb_inertia o cd (r_h s) (r_last s) = (r, h1, v1) ->
  J (RState h1 r (if r then v1 else r_last s) (observe Inertia s)).
Proof.
  intros P HJ Lv. pose proof (obs_fin s Inertia HJ ltac:(discriminate)) as OF.
  destruct HJ as (I0 & T & C & Cn & W & L). destruct (L Lv) as (X & CN & D1 & D2). clear L.
  pose proof (fin_xok _ X) as X'. pose proof (fin_three _ T) as T'. pose proof (fin_consistent _ C) as C'.
  pose proof (fin_cnz _ CN) as CN'. pose proof (fun e => Cn (counts_fin _ e)) as Cn'.
  unfold perturb_inertia. cbv zeta.
  set (h := finalize_test (r_h s)) in *.
  destruct (get_deltas o h (r_last s)) as [[r5 h5] v5] eqn:E.
  destruct (get_good _ _ _ _ _ X' E) as (G1 & G2 & G3 & G4 & G5 & G6 & G7).
  pose proof (get_wk o V _ _ _ _ _ (wk_of_xok _ X') E) as W5.
  destruct r5; cbn [negb andb].
  - intros E'; inversion E'; subst; clear E'. destruct (G7 eq_refl) as (X5 & N5 & D5 & D6).
    jsplit.
    + lia.
    + unfold three in *. rewrite G2, G3, G4. exact T'.
    + unfold consistent in *. rewrite G2, G3. exact C'.
    + intros _. eapply nz_x; eauto.
    + exact W5.
    + intros _. split; auto. split; auto. unfold cnz in *. rewrite G1, G3, G5. exact CN'.
  - destruct (G6 eq_refl) as (-> & Z5 & O5).
    destruct (is_zero_var (dc (r_last s))) eqn:ZV.
    + set (h3 := if is_degen _ then _ else _).
      assert (A3 : x_last h3 = nzero /\ x_curr h3 = nzero /\ c_curr h3 = cd /\ status h3 = NO_TEST
                 /\ jac h3 = jac h /\ iters h3 = iters h /\ (hess h3 = if is_degen (hess h) then NYD else hess h)).
      { unfold h3. simpl. rewrite G2. destruct (is_degen (hess h)); simpl; auto 8. }
      clearbody h3. destruct A3 as (B1 & B2 & B3 & B4 & B5 & B6 & B7).
      assert (X3 : xok h3).
      { unfold xok. rewrite B1, B2. split; [apply ok_zero|]. split; [reflexivity|]. rewrite key_nzero; lra. }
      intros E'. destruct (get_good _ _ _ _ _ X3 E') as (H1 & H2 & H3 & H4 & H5 & H6 & H7).
      pose proof (get_wk o V _ _ _ _ _ (wk_of_xok _ X3) E') as W6.
      assert (JD : jac h <> Degen).
      { intros Q. assert (Q' : neqb (c_curr h) nzero = false) by (apply CN'; auto).
        rewrite D2 in ZV. simpl in ZV. destruct (finalize_fields (r_h s)) as (_ & _ & _ & F4 & _).
        unfold h in Q'. rewrite F4 in Q'. congruence. }
      assert (T3 : three h1 /\ consistent h1).
      { unfold three, consistent. rewrite H2, H3, H4, B5, B6, B7. destruct T' as [T1 T2], C' as [C1 C2].
        split; split.
        - destruct (is_degen (hess h)) eqn:DG; [discriminate|]. intros Q. rewrite Q in DG. discriminate.
        - intros Q; congruence.
        - intros [_ Q]; congruence.
        - intros [Q1 Q2]. destruct (is_degen (hess h)) eqn:DG; [discriminate|]. rewrite Q2 in DG. discriminate. }
      assert (K3 : counts h1 = false) by (unfold counts; rewrite H1, B4; reflexivity).
      destruct T3 as [T3 C3]. jsplit; auto.
      { rewrite H4, B6; exact OF. }
      { rewrite K3; discriminate. }
      intros ->. destruct (H7 eq_refl) as (X7 & N7 & D7 & D8). split; auto. split; auto.
      unfold cnz. intros _. rewrite H5, B3. apply cd_nz; auto.
    + intros E'; inversion E'; subst; clear E'.
      jsplit; auto; try discriminate.
      { lia. }
      { unfold three in *. rewrite G2, G3, G4. exact T'. }
      { unfold consistent in *. rewrite G2, G3. exact C'. }
      unfold counts in *. rewrite G1, G2, G3. exact Cn'.
Qed.

Lemma J_new s cd r h1 v1 : cd_pos cd -> J s ->
  consider_new o cd (r_h s) (r_last s) = (r, h1, v1) ->
  J (RState h1 r (if r then v1 else r_last s) (observe New s)).
Proof.
  intros P HJ. pose proof (obs_fin s New HJ ltac:(discriminate)) as OF.
  destruct HJ as (I0 & T & C & Cn & W & _). 
  pose proof (fin_three _ T) as T'. pose proof (fin_consistent _ C) as C'.
  pose proof (cd_nz _ P) as CZ.
  unfold consider_new. cbv zeta. change reset_last with false. cbv iota.
  destruct (finalize_fields (r_h s)) as (F1 & F2 & _).
  set (h := finalize_test (r_h s)) in *.
  set (h2 := if ngt (x_curr h) nzero then _ else _).
  assert (A2 : ok0 (x_last h2) /\ hess h2 = hess h /\ jac h2 = jac h /\ iters h2 = iters h).
  { unfold h2. destruct W as [W1 W2]. destruct (ngt _ _); simpl; rewrite ?F1, ?F2; auto. }
  clearbody h2. destruct A2 as (A1 & A2 & A3 & A4). rewrite A2, A3.
  set (t := if is_nyd (hess h) || is_nyd (jac h) then _ else _).
  set (c := if is_degen (jac (set_status h2 t)) then _ else _).
  assert (K : forall h', status h' = t -> c_curr h' = c -> jac h' = jac h -> cnz h').
  { intros h' K1 K2 K3. unfold cnz. rewrite K1, K2, K3. unfold c. cbn [jac set_status]. rewrite A3. unfold t.
    intros [Q|[Q|Q]].
    - destruct (_ || _); [|discriminate]. destruct (o_always o); [|discriminate].
      destruct (is_degen (jac h)); auto.
    - destruct (_ || _); [|discriminate]. destruct (o_always o); discriminate.
    - rewrite Q. simpl. auto. }
  assert (KC : t = GT0_EQ0 -> c = cd).
  { unfold t, c. destruct (_ || _); [|discriminate]. destruct (o_always o); [|discriminate].
    intros _. destruct (is_degen _); auto. }
  assert (TT : t = EQ0_EQ0 \/ t = GT0_EQ0 \/ t = NO_TEST).
  { unfold t. destruct (_ || _); auto. destruct (o_always o); auto. }
  assert (TD : hess h = Degen -> t = NO_TEST).
  { intros Q. unfold t. rewrite Q. simpl. destruct (jac h) eqn:Q2; auto. exfalso. apply C'; auto. }
  clearbody t c.
  cbn [hess set_cd set_status]. rewrite A2.
  destruct (is_degen (hess h)) eqn:HD.
  - assert (HD' : hess h = Degen) by (destruct (hess h); simpl in HD; congruence).
    specialize (TD HD'). 
    set (h4 := set_xs (set_cd (set_status h2 t) c) nzero).
    assert (X4 : xok h4).
    { unfold xok, h4. simpl. split; auto. split; [reflexivity|rewrite ?key_nzero; lra]. }
    destruct (get_deltas o h4 _) as [[r5 h5] v5] eqn:G.
    destruct (get_good _ _ _ _ _ X4 G) as (G1 & G2 & G3 & G4 & G5 & G6 & G7).
    pose proof (get_wk o V _ _ _ _ _ (wk_of_xok _ X4) G) as W5.
    unfold h4 in G1, G2, G3, G4, G5. simpl in G1, G2, G3, G4, G5. rewrite A2 in G2. rewrite A3 in G3. rewrite A4 in G4.
    assert (K5 : counts h5 = false) by (unfold counts; rewrite G1, TD; reflexivity).
    assert (J5 : (iters h5 <= observe New s)%nat /\ three h5 /\ consistent h5).
    { unfold three, consistent in *. rewrite G2, G3, G4. auto. }
    destruct J5 as (J1 & J2 & J3).
    destruct r5; cbn [negb]; intros E; inversion E; subst; clear E.
    + destruct (G7 eq_refl) as (X5 & N5 & D5 & D6).
      jsplit; auto. rewrite K5; discriminate.
    + jsplit; auto; try discriminate. rewrite K5; discriminate.
  - intros E; inversion E; subst; clear E.
    jsplit.
    + simpl. rewrite A4. exact OF.
    + unfold three in *. simpl. rewrite A2, A3, A4. exact T'.
    + unfold consistent in *. simpl. rewrite A2, A3. exact C'.
    + unfold counts; cbn [status set_xs set_cd set_status]. intros Q.
      assert (t = GT0_EQ0) by (destruct TT as [ -> | [ -> | -> ]]; auto; discriminate).
      eapply nz_c; [reflexivity|]. rewrite (KC H). exact CZ.
    + split; simpl; auto using ok_zero.
    + intros _. split; [|split; auto].
      split; simpl; auto. split; [reflexivity|]. lra.
Qed.

Lemma J_step s cc : cd_pos (snd cc) -> J s -> J (r_step o s cc).
Proof.
  destruct cc as [c cd]. cbn [snd]. intros P HJ. unfold r_step.
  destruct c.
  - cbn [do_call]. destruct (consider_new _ _ _ _) as [[r h1] v1] eqn:E. eapply J_new; eauto.
  - destruct (r_live s) eqn:L; auto. cbn [do_call].
    destruct (perturb_singular _ _ _ _) as [[r h1] v1] eqn:E. eapply J_sing; eauto.
  - destruct (r_live s) eqn:L; auto. cbn [do_call].
    destruct (perturb_inertia _ _ _ _) as [[r h1] v1] eqn:E. eapply J_inertia; eauto.
Qed.

Lemma J_run cs : (forall cc, In cc cs -> cd_pos (snd cc)) -> J (r_run o cs).
Proof.
  unfold r_run. generalize (J_init). generalize (r_init o).
  induction cs as [|cc cs IH]; simpl; intros s HJ A; auto.
  apply IH; auto. apply J_step; auto.
Qed.

(** the first perturbation for a new matrix *)
Lemma new_first cd h v h1 v1 : consider_new o cd h v = (true, h1, v1) ->
  (hess h1 <> Degen -> dx v1 = Some nzero /\ ds v1 = Some nzero) /\
  (jac h1 <> Degen -> dc v1 = Some (if o_always o then cd else nzero) /\ dd v1 = dc v1).
Proof.
  unfold consider_new. cbv zeta. change reset_last with false. cbv iota.
  set (h2 := if ngt _ nzero then _ else _). clearbody h2.
  set (t := if is_nyd (hess h2) || is_nyd (jac h2) then _ else _). clearbody t.
  cbn [jac hess set_status set_cd].
  destruct (is_degen (hess h2)) eqn:HD.
  - destruct (get_deltas o _ _) as [[r5 h5] v5] eqn:G.
    destruct r5; cbn [negb]; intros E; inversion E; subst; clear E.
    apply get_deltas_spec in G. destruct G as [(_ & _ & -> & ->)|(X & _)]; [|discriminate]. simpl.
    split; intros N.
    + destruct (hess h2); simpl in HD; congruence.
    + destruct (jac h2); simpl; try congruence; auto.
  - intros E; inversion E; subst; clear E. simpl. split; auto.
    intros N. destruct (jac h2); simpl; try congruence; auto.
Qed.
End Degen.
