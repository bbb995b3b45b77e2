(** PDFullSpaceSolver::Solve: the outer loop. *)
From Coq Require Import Reals List Arith Bool Lra Lia.
From Verif Require Import CQModel CQSpec CQVec PdModel PdSpec PdAlg PdProofs.
Import ListNotations.
Open Scope R_scope.

Section Loop.
Context {H A : Type}.
Variables (ho : hops H) (ao : augops A) (o : popts) (Y : psys).
Hypothesis HO : handler_ok ho.
Variable rhs : iv.
Hypothesis OO : popts_ok o.
Notation st := (pst H A).
Notation cached := (cached Y).
Notation ratio_at := (ratio_at ho Y rhs).

Definition passes_le (k : nat) (f : flags) (s : st) : Prop :=
  (f_last f = true /\ (1 <= k)%nat) \/ ((p_impr s = true /\ cached s) /\ (2 <= k)%nat) \/ (3 <= k)%nat.

Definition accepted (f : flags) (new : list event) (s' : st) (v : iv) : Prop :=
  rgt (ratio_at s' v) (Fin (rr_max o)) = false \/
  ((min_ref o < count is_ref new)%nat /\
   (f_last f = true \/ In E_singular new \/
    (rgt (Fin (rr_sing o)) (ratio_at s' v) = true /\ (p_impr s' = true \/ In (E_quality false) new)))).

Lemma in_cons_app {B} (e : B) a b : In e a -> In e (a ++ b). Proof. intros. apply in_or_app. auto. Qed.

Lemma loop_facts fr fo fuel : forall k improve f res (s s' : st) r, passes_le k f s ->
  (improve = true -> f_resolve f = false /\ f_pretend f = false) ->
  solve_loop ho ao o fuel fr fo Y false improve rhs f res s = (r, s') ->
  exists new, p_ev s' = new ++ p_ev s /\ (count is_first new <= k)%nat /\ (count is_ref new <= k * S (max_ref o))%nat /\
    (forall v, r = R_true v -> (min_ref o <= count is_ref new)%nat /\ accepted f new s' v) /\
    (match r with R_false _ | R_abort => In (E_fail (y_id Y)) (p_ev s') | _ => True end).
Proof.
  induction fuel as [|fuel IH]; intros k improve f res s s' r Hk Hf E; cbn [solve_loop] in E.
  { injection E as <- <-. exists []. cbn. repeat split; try lia; discriminate. }
  (* the solve at the beginning of the pass *)
  destruct (if improve then (Some (Some res), f, s)
            else let '(r, s) := solve_once ho ao o fo Y false (f_pretend f) 1 0 rhs res s in (r, Fl false false (f_last f), s)) as [[r1 f1] s1] eqn:C1.
  assert (P1 : exists n1, p_ev s1 = n1 ++ p_ev s /\ (count is_first n1 <= 1)%nat /\ count is_ref n1 = O /\ f_last f1 = f_last f /\ (f_resolve f1 = false /\ f_pretend f1 = false) /\
            (cached s -> p_impr s = true -> cached s1 /\ p_impr s1 = true) /\ (r1 = Some None -> In (E_fail (y_id Y)) (p_ev s1))).
  { destruct improve.
    - injection C1 as <- <- <-. exists []. specialize (Hf eq_refl). splits; auto; try apply Hf; cbn; try lia; discriminate.
    - destruct (solve_once ho ao o fo Y false (f_pretend f) 1 0 rhs res s) as [r0 s0] eqn:CS. injection C1 as <- <- <-.
      pose proof (solve_once_post ho ao o Y HO _ _ _ _ _ _ _ _ _ _ CS) as [pc pi ph (new1 & Pe & Pf & _ & _) pfail _ _].
      destruct (once_count Y _ Pf) as [N1 N2].
      exists (new1 ++ [E_once (y_id Y) false]). rewrite !count_app, N1, N2, <- app_assoc. splits; auto. }
  clear C1. destruct P1 as (n1 & Pe1 & Pf1 & Pr1 & Fl1 & (Fr1 & Fp1) & Pi1 & Pq1).
  destruct r1 as [[res1|]|].
  2:{ injection E as <- <-. exists n1. splits; auto; try lia.
      - destruct Hk as [[_ Hk]|[[_ Hk]|Hk]]; lia.
      - discriminate. }
  2:{ injection E as <- <-. exists n1. splits; auto; try lia.
      - destruct Hk as [[_ Hk]|[[_ Hk]|Hk]]; lia.
      - discriminate. }
  change (resid_ratio rhs res1 (residuals Y (h_cur ho (p_h s1)) rhs res1)) with (ratio_at s1 res1) in E.
  destruct (refine ho ao o fr fo Y rhs 0 (ratio_at s1 res1) (ratio_at s1 res1) f1 res1 (residuals Y (h_cur ho (p_h s1)) rhs res1) s1) as [q s2] eqn:C2.
  pose proof (refine_facts ho ao o Y HO rhs OO fr fo O f1 res1 s1 q s2 (ratio_at s1 res1) (or_introl (Nat.le_0_l _)) C2) as [(n2 & Pe2 & Pf2 & Pr2 & Pq2) Pc2 Pfail2].
  assert (L2 : (count is_ref n2 <= S (max_ref o))%nat) by (cbn in Pr2; lia). clear Pr2.
  assert (K1 : (1 <= k)%nat) by (destruct Hk as [[_ Hk]|[[_ Hk]|Hk]]; lia).
  assert (Kk : (S (max_ref o) <= k * S (max_ref o))%nat) by nia.
  destruct q as [[[f2 res2]|]|].
  2:{ injection E as <- <-. exists (n2 ++ n1). rewrite !count_app, Pf2, Pr1, Pe2, Pe1, app_assoc. splits; auto; try lia.
      - discriminate.
      - rewrite Pe2, Pe1, app_assoc in Pfail2. auto. }
  2:{ injection E as <- <-. exists (n2 ++ n1). rewrite !count_app, Pf2, Pr1, Pe2, Pe1, app_assoc. splits; auto; try lia. discriminate. }
  destruct (Pq2 f2 res2 eq_refl) as (M1 & M2 & M3). clear Pq2.
  destruct (negb (f_resolve f2) && negb (f_pretend f2)) eqn:DN.
  - injection E as <- <-. exists (n2 ++ n1). rewrite !count_app, Pf2, Pr1, Pe2, Pe1, app_assoc. splits; auto; try lia.
    intros v Ev. injection Ev as <-. split; [lia|]. unfold accepted. rewrite !count_app, Pr1.
    destruct M3 as [[M3 _]|(M3 & M4 & M5 & M6 & M7 & M8)]; [left; exact M3|]. right. split; [lia|]. rewrite <- Fl1.
    destruct M8 as [(M8 & M9)|[(M8 & _)|(M8 & _)]]; [|rewrite M8 in DN; discriminate DN|rewrite M8 in DN; discriminate DN].
    destruct (f_last f1) eqn:FL; [left; reflexivity|]. right. right. destruct M9 as [M9|M9]; [discriminate|]. split; [exact M9|].
    destruct (M7 eq_refl) as [M7'|M7']; [left; exact M7'|right; apply in_cons_app; exact M7'].
  - (* another pass *)
    assert (NX : exists k', (k = S k')%nat /\ passes_le k' f2 s2 /\ (f_last f2 = true -> In E_singular n2) /\ f_last f = false /\ cached s2).
    { destruct M3 as [[M3 M3']|(M3 & M4 & M5 & M6 & M7 & M8)].
      - (* f1 has both flags false *) exfalso. subst f2. rewrite Fr1, Fp1 in DN. discriminate DN.
      - destruct M8 as [(M8 & _)|[(M8 & M9 & M10 & M11)|(M8 & M9)]]; subst f2; [discriminate DN| |].
        + assert (k3 : (3 <= k)%nat).
          { destruct Hk as [[Hk _]|[[[Hk1 Hk2] _]|Hk]]; [congruence| |exact Hk]. destruct (Pi1 Hk2 Hk1) as [Q1 Q2]. rewrite (M11 Q1) in Q2. discriminate. }
          exists (k - 1)%nat. splits; try lia; auto; try congruence. right. left. split; [auto|lia].
        + assert (k2 : (2 <= k)%nat) by (destruct Hk as [[Hk _]|[[_ Hk]|Hk]]; [congruence|lia|lia]).
          exists (k - 1)%nat. splits; try lia; auto; try congruence. left. split; [reflexivity|lia]. }
    destruct NX as (k' & -> & Pk & PS & FLf & Cs2).
    destruct (IH k' false f2 res2 s2 s' r Pk ltac:(discriminate) E) as (n3 & Pe3 & Pf3 & Pr3 & Pt3 & Pz3).
    exists (n3 ++ n2 ++ n1). rewrite !count_app, Pf2, Pr1, Pe3, Pe2, Pe1, !app_assoc. splits; auto; try lia.
    + intros v Ev. destruct (Pt3 v Ev) as [Pt4 Pt5]. split; [lia|]. unfold accepted in *. rewrite !count_app, Pr1.
      destruct Pt5 as [Pt5|(Pt5 & Pt6)]; [left; exact Pt5|]. right. split; [lia|].
      destruct Pt6 as [Pt6|[Pt6|(Pt6 & Pt7)]].
      * right. left. apply in_or_app. left. apply in_or_app. right. apply PS. exact Pt6.
      * right. left. apply in_or_app. left. apply in_or_app. left. exact Pt6.
      * right. right. split; [exact Pt6|]. destruct Pt7 as [Pt7|Pt7]; [left; exact Pt7|right; apply in_or_app; left; apply in_or_app; left; exact Pt7].
    + rewrite <- !app_assoc, <- Pe1, <- Pe2, <- Pe3. exact Pz3.
Qed.

(** termination *)
Section Term.
Variable fo : nat.
Hypothesis HT : forall refn pretend al be b v (s : st), fst (solve_once ho ao o fo Y refn pretend al be b v s) <> None.
Lemma refine_terminates fuel : forall n f res (s : st) rold, (n <= max_ref o)%nat \/ rgt (ratio_at s res) (Fin (rr_max o)) = false ->
  (S (max_ref o) <= fuel + n)%nat ->
  fst (refine ho ao o fuel fo Y rhs n (ratio_at s res) rold f res (residuals Y (h_cur ho (p_h s)) rhs res) s) <> None.
Proof.
  pose proof (po_mm _ OO) as MM.
  induction fuel as [|fuel IH]; intros n f res s rold Hn Hfu; cbn [refine].
  - destruct Hn as [Hn|Hn]; [lia|]. rewrite Hn. replace (Nat.ltb n (min_ref o)) with false by (symmetry; apply Nat.ltb_ge; lia). cbn. discriminate.
  - destruct (Nat.ltb n (min_ref o) || rgt (ratio_at s res) (Fin (rr_max o))) eqn:C; [|cbn; discriminate].
    match goal with |- context [solve_once ?a1 ?a2 ?a3 ?a4 ?a5 ?a6 ?a7 ?a8 ?a9 ?b1 ?b2 ?b3] => pose proof (HT a6 a7 a8 a9 b1 b2 b3) as T;
      destruct (solve_once a1 a2 a3 a4 a5 a6 a7 a8 a9 b1 b2 b3) as [r s1] end.
    cbn [fst] in T. destruct r as [[res1|]|]; [|cbn; discriminate|congruence].
    change (resid_ratio rhs res1 (residuals Y (h_cur ho (p_h s1)) rhs res1)) with (ratio_at s1 res1).
    match goal with |- context [if ?g then _ else _] => destruct g eqn:G end.
    + destruct (give_up ao o (ratio_at s1 res1) f s1). cbn. discriminate.
    + apply IH; [|lia]. destruct (rgt (ratio_at s1 res1) (Fin (rr_max o))); [|right; reflexivity]. left. cbn [andb] in G.
      destruct (Nat.ltb_spec (min_ref o) (S n)); [|lia]. cbn [andb] in G. destruct (Nat.ltb_spec (max_ref o) (S n)); [discriminate|lia].
Qed.
Lemma loop_terminates fr fuel : (S (max_ref o) <= fr)%nat -> forall k inexact improve f res (s : st), passes_le k f s -> (k <= fuel)%nat ->
  (improve = true -> f_resolve f = false /\ f_pretend f = false) ->
  fst (solve_loop ho ao o fuel fr fo Y inexact improve rhs f res s) <> R_never.
Proof.
  intros Hfr. induction fuel as [|fuel IH]; intros k inexact improve f res s Hk Hle Hf.
  { exfalso. destruct Hk as [[_ Hk]|[[_ Hk]|Hk]]; lia. }
  cbn [solve_loop].
  destruct (if improve then (Some (Some res), f, s)
            else let '(r, s) := solve_once ho ao o fo Y false (f_pretend f) 1 0 rhs res s in (r, Fl false false (f_last f), s)) as [[r1 f1] s1] eqn:C1.
  assert (P1 : r1 <> None /\ f_last f1 = f_last f /\ (f_resolve f1 = false /\ f_pretend f1 = false) /\
            (cached s -> p_impr s = true -> cached s1 /\ p_impr s1 = true)).
  { destruct improve.
    - injection C1 as <- <- <-. specialize (Hf eq_refl). splits; auto; try apply Hf. discriminate.
    - pose proof (HT false (f_pretend f) 1 0 rhs res s) as T.
      destruct (solve_once ho ao o fo Y false (f_pretend f) 1 0 rhs res s) as [r0 s0] eqn:CS. injection C1 as <- <- <-. cbn [fst] in T.
      pose proof (solve_once_post ho ao o Y HO _ _ _ _ _ _ _ _ _ _ CS) as [pc pi ph _ _ _ _]. splits; auto. }
  clear C1. destruct P1 as (T1 & Fl1 & (Fr1 & Fp1) & Pi1).
  destruct r1 as [[res1|]|]; [|cbn; discriminate|congruence]. destruct inexact; [cbn; discriminate|].
  change (resid_ratio rhs res1 (residuals Y (h_cur ho (p_h s1)) rhs res1)) with (ratio_at s1 res1).
  pose proof (refine_terminates fr O f1 res1 s1 (ratio_at s1 res1) (or_introl (Nat.le_0_l _)) ltac:(lia)) as T2.
  destruct (refine ho ao o fr fo Y rhs 0 (ratio_at s1 res1) (ratio_at s1 res1) f1 res1 (residuals Y (h_cur ho (p_h s1)) rhs res1) s1) as [q s2] eqn:C2.
  pose proof (refine_facts ho ao o Y HO rhs OO fr fo O f1 res1 s1 q s2 (ratio_at s1 res1) (or_introl (Nat.le_0_l _)) C2) as [(n2 & _ & _ & _ & Pq2) _ _].
  cbn [fst] in T2. destruct q as [[[f2 res2]|]|]; [|cbn; discriminate|congruence].
  destruct (Pq2 f2 res2 eq_refl) as (_ & _ & M3).
  destruct (negb (f_resolve f2) && negb (f_pretend f2)) eqn:DN; [cbn; discriminate|].
  assert (NX : exists k', (k = S k')%nat /\ passes_le k' f2 s2).
  { destruct M3 as [[M3 M3']|(M3 & M4 & M5 & M6 & M7 & M8)].
    - exfalso. subst f2. rewrite Fr1, Fp1 in DN. discriminate DN.
    - destruct M8 as [(M8 & _)|[(M8 & M9 & M10 & M11)|(M8 & M9)]]; subst f2; [discriminate DN| |].
      + assert (k3 : (3 <= k)%nat).
        { destruct Hk as [[Hk _]|[[[Hk1 Hk2] _]|Hk]]; [congruence| |exact Hk]. destruct (Pi1 Hk2 Hk1) as [Q1 Q2]. rewrite (M11 Q1) in Q2. discriminate. }
        exists (k - 1)%nat. split; [lia|]. right. left. split; [auto|lia].
      + assert (k2 : (2 <= k)%nat) by (destruct Hk as [[Hk _]|[[_ Hk]|Hk]]; [congruence|lia|lia]).
        exists (k - 1)%nat. split; [lia|]. left. split; [reflexivity|lia]. }
  destruct NX as (k' & -> & Pk). eapply IH; [exact Pk|lia|discriminate].
Qed.
End Term.

(** The inertia was checked for the perturbation in use, or a solve with this matrix failed before *)
Definition inertia_inv (s : st) : Prop := forall id, p_cache s = Some id ->
  In (E_aug id (h_cur ho (p_h s)) (negb (curv_on o)) SUCCESS) (p_ev s) \/ In (E_fail id) (p_ev s).
Lemma once_inertia fo refn pretend al be b v (s s' : st) r : solve_once ho ao o fo Y refn pretend al be b v s = (r, s') -> r <> None ->
  inertia_inv s -> inertia_inv s'.
Proof.
  intros E Hr I0. pose proof (solve_once_post ho ao o Y HO _ _ _ _ _ _ _ _ _ _ E) as [pc pi ph (n & Pe & _) pfail _ pchk].
  intros id Hid. rewrite pc in Hid. injection Hid as <-. destruct r as [[w|]|]; [|right; apply pfail; reflexivity|congruence].
  destruct (pchk w eq_refl) as [[Cs ->]|K]; [|left; exact K]. rewrite (ph Cs eq_refl), Pe.
  destruct (I0 _ Cs) as [K|K]; [left|right]; apply in_or_app; right; right; exact K.
Qed.
Lemma give_up_inertia ratio f (s s' : st) f' : give_up ao o ratio f s = (f', s') -> inertia_inv s -> inertia_inv s'.
Proof.
  intros E I0. destruct (give_up_facts ao o _ _ _ _ _ E) as (U1 & U2 & _ & (n & V & _) & _).
  intros id Hid. rewrite U2 in Hid. rewrite U1, V. destruct (I0 id Hid) as [K|K]; [left|right]; apply in_or_app; right; exact K.
Qed.
Lemma refine_inertia fo fuel : forall n f res (s s' : st) ratio rold resid q,
  refine ho ao o fuel fo Y rhs n ratio rold f res resid s = (q, s') -> q <> None -> inertia_inv s -> inertia_inv s'.
Proof.
  induction fuel as [|fuel IH]; intros n f res s s' ratio rold resid q E Hq I0; cbn [refine] in E;
    (destruct (Nat.ltb n (min_ref o) || rgt ratio (Fin (rr_max o))) eqn:C; [|injection E as <- <-; exact I0]).
  - injection E as <- <-. congruence.
  - destruct (solve_once ho ao o fo Y true false (-1) 1 resid res s) as [r s1] eqn:CS. destruct r as [[res1|]|].
    + pose proof (once_inertia _ _ _ _ _ _ _ _ _ _ CS ltac:(discriminate) I0) as I1. cbv zeta in E.
      match type of E with context [if ?g then _ else _] => destruct g eqn:G end.
      * match type of E with context [give_up ao o ?x f s1] => destruct (give_up ao o x f s1) as [f' s2] eqn:GU end. injection E as <- <-.
        eapply give_up_inertia; eassumption.
      * eapply IH; eassumption.
    + injection E as <- <-. eapply once_inertia; try eassumption. discriminate.
    + injection E as <- <-. congruence.
Qed.
Lemma loop_inertia fr fo fuel : forall inexact improve f res (s s' : st) r,
  solve_loop ho ao o fuel fr fo Y inexact improve rhs f res s = (r, s') -> r <> R_never -> inertia_inv s -> inertia_inv s'.
Proof.
  induction fuel as [|fuel IH]; intros inexact improve f res s s' r E Hr I0; cbn [solve_loop] in E; [injection E as <- <-; congruence|].
  destruct (if improve then (Some (Some res), f, s)
            else let '(r, s) := solve_once ho ao o fo Y false (f_pretend f) 1 0 rhs res s in (r, Fl false false (f_last f), s)) as [[r1 f1] s1] eqn:C1.
  assert (I1 : r1 <> None -> inertia_inv s1).
  { destruct improve; [injection C1 as <- <- <-; auto|].
    destruct (solve_once ho ao o fo Y false (f_pretend f) 1 0 rhs res s) as [r0 s0] eqn:CS. injection C1 as <- <- <-.
    intros N. eapply once_inertia; eassumption. }
  clear C1. destruct r1 as [[res1|]|]; [specialize (I1 ltac:(discriminate))|injection E as <- <-; apply I1; discriminate|injection E as <- <-; congruence].
  destruct inexact; [injection E as <- <-; exact I1|]. cbv zeta in E.
  match type of E with context [refine ho ao o fr fo Y rhs ?n ?a ?b f1 res1 ?c s1] => destruct (refine ho ao o fr fo Y rhs n a b f1 res1 c s1) as [q s2] eqn:C2 end.
  destruct q as [[[f2 res2]|]|]; [|injection E as <- <-; eapply refine_inertia; try eassumption; discriminate|injection E as <- <-; congruence].
  pose proof (refine_inertia _ _ _ _ _ _ _ _ _ _ _ C2 ltac:(discriminate) I1) as I2.
  destruct (negb (f_resolve f2) && negb (f_pretend f2)); [injection E as <- <-; exact I2|]. eapply IH; eassumption.
Qed.
(** after a successful call the matrix is the one of the cache *)
Lemma loop_cached fr fo fuel : forall inexact improve f res (s s' : st) v, (improve = true -> cached s) ->
  solve_loop ho ao o fuel fr fo Y inexact improve rhs f res s = (R_true v, s') -> cached s'.
Proof.
  induction fuel as [|fuel IH]; intros inexact improve f res s s' v Hc E; cbn [solve_loop] in E; [discriminate|].
  destruct (if improve then (Some (Some res), f, s)
            else let '(r, s) := solve_once ho ao o fo Y false (f_pretend f) 1 0 rhs res s in (r, Fl false false (f_last f), s)) as [[r1 f1] s1] eqn:C1.
  assert (I1 : cached s1).
  { destruct improve; [injection C1 as <- <- <-; auto|].
    destruct (solve_once ho ao o fo Y false (f_pretend f) 1 0 rhs res s) as [r0 s0] eqn:CS. injection C1 as <- <- <-.
    apply (solve_once_post ho ao o Y HO _ _ _ _ _ _ _ _ _ _ CS). }
  clear C1. destruct r1 as [[res1|]|]; [|discriminate|discriminate].
  destruct inexact; [injection E as <- <-; exact I1|]. cbv zeta in E.
  change (resid_ratio rhs res1 (residuals Y (h_cur ho (p_h s1)) rhs res1)) with (ratio_at s1 res1) in E.
  destruct (refine ho ao o fr fo Y rhs 0 (ratio_at s1 res1) (ratio_at s1 res1) f1 res1 (residuals Y (h_cur ho (p_h s1)) rhs res1) s1) as [q s2] eqn:C2.
  pose proof (refine_facts ho ao o Y HO rhs OO fr fo O f1 res1 s1 q s2 (ratio_at s1 res1) (or_introl (Nat.le_0_l _)) C2) as [_ Pc _].
  destruct (Pc I1) as (I2 & _).
  destruct q as [[[f2 res2]|]|]; [|discriminate|discriminate].
  destruct (negb (f_resolve f2) && negb (f_pretend f2)); [injection E as <- <-; exact I2|]. eapply (IH false false); [intros X; discriminate X|exact E].
Qed.

(** what the ratio says *)
Lemma iv_amax_is v : maxabs_is v (iv_amax v).
Proof.
  pose proof (fun G => norml_is NMax [vx v; vs v; vyc v; vyd v; vzL v; vzU v; vvL v; vvU v]
    (map (fun v : vec => (length v, fun i => nth i v 0)) [vx v; vs v; vyc v; vyd v; vzL v; vzU v; vvL v; vvU v]) G) as Q.
  apply Q. cbn [map]. repeat (constructor; [cbn; apply vis_self; reflexivity|]). constructor.
Qed.
Lemma maxabs_unique v a b : maxabs_is v a -> maxabs_is v b -> a = b.
Proof.
  intros [A1 A2] [B1 B2].
  assert (P : forall c, (c = 0 \/ exists f i, In f (map (fun v : vec => (length v, fun i => nth i v 0)) [vx v; vs v; vyc v; vyd v; vzL v; vzU v; vvL v; vvU v]) /\ (i < fst f)%nat /\ c = Rabs (snd f i)) -> 0 <= c).
  { intros c [->|(f & i & _ & _ & ->)]; [lra|apply Rabs_pos]. }
  pose proof (P a A2) as Pa. pose proof (P b B2) as Pb.
  destruct A2 as [->|(f & i & F & Hi & ->)], B2 as [->|(g & j & G & Hj & ->)]; [reflexivity| | |].
  - specialize (A1 g j G Hj). lra.
  - specialize (B1 f i F Hi). lra.
  - specialize (A1 g j G Hj). specialize (B1 f i F Hi). lra.
Qed.
Lemma maxabs_pos v a : maxabs_is v a -> 0 <= a.
Proof. intros [_ [->|(f & i & _ & _ & ->)]]; [lra|apply Rabs_pos]. Qed.

Section Exact.
Variables (nx ns nc : nat).
Hypothesis K : sys_ok nx ns nc Y.
Hypothesis Hrhs : iv_ok nx ns nc Y rhs.

Lemma all_zero v w : iv_is nx ns nc Y v w -> (forall i, w_x w i = 0) -> (forall i, w_s w i = 0) -> (forall i, w_c w i = 0) -> (forall i, w_d w i = 0) ->
  (forall i, w_zL w i = 0) -> (forall i, w_zU w i = 0) -> (forall i, w_vL w i = 0) -> (forall i, w_vU w i = 0) -> iv_amax v = 0.
Proof.
  intros (A1 & A2 & A3 & A4 & A5 & A6 & A7 & A8) Z1 Z2 Z3 Z4 Z5 Z6 Z7 Z8.
  destruct (iv_amax_is v) as [_ [E|(f & i & F & Hi & E)]]; [exact E|]. rewrite E. cbn [map] in F.
  destruct F as [<-|[<-|[<-|[<-|[<-|[<-|[<-|[<-|[]]]]]]]]]; cbn [fst snd] in *.
  - rewrite (proj2 A1) by (rewrite <- (proj1 A1); exact Hi). rewrite Z1. apply Rabs_R0.
  - rewrite (proj2 A2) by (rewrite <- (proj1 A2); exact Hi). rewrite Z2. apply Rabs_R0.
  - rewrite (proj2 A3) by (rewrite <- (proj1 A3); exact Hi). rewrite Z3. apply Rabs_R0.
  - rewrite (proj2 A4) by (rewrite <- (proj1 A4); exact Hi). rewrite Z4. apply Rabs_R0.
  - rewrite (proj2 A5) by (rewrite <- (proj1 A5); exact Hi). rewrite Z5. apply Rabs_R0.
  - rewrite (proj2 A6) by (rewrite <- (proj1 A6); exact Hi). rewrite Z6. apply Rabs_R0.
  - rewrite (proj2 A7) by (rewrite <- (proj1 A7); exact Hi). rewrite Z7. apply Rabs_R0.
  - rewrite (proj2 A8) by (rewrite <- (proj1 A8); exact Hi). rewrite Z8. apply Rabs_R0.
Qed.
Lemma amax_zero v : iv_amax v = 0 -> forall l i, In l [vx v; vs v; vyc v; vyd v; vzL v; vzU v; vvL v; vvU v] -> nth i l 0 = 0.
Proof.
  intros E l i Hl. destruct (Nat.lt_ge_cases i (length l)) as [L|L]; [|apply nth_overflow; exact L].
  destruct (iv_amax_is v) as [B _]. specialize (B (length l, fun i => nth i l 0) i). cbn [fst snd] in B. rewrite E in B.
  specialize (B (in_map (fun v : vec => (length v, fun i => nth i v 0)) _ _ Hl) L).
  pose proof (Rabs_pos (nth i l 0)). destruct (Req_dec (nth i l 0) 0) as [|N]; [assumption|]. apply Rabs_no_R0 in N. lra.
Qed.
Lemma zero_solves d v : iv_ok nx ns nc Y v -> iv_amax rhs = 0 -> iv_amax v = 0 -> solves nx ns nc Y d rhs v.
Proof.
  intros Hv Zr Zv. pose proof (amax_zero _ Zr) as Zr'. pose proof (amax_zero _ Zv) as Zv'. split; [exact Hv|].
  apply (newton_lin nx ns nc Y d K v v v 0 0 rhs).
  - eapply iv_is_ext; [exact Hv|..]; intros i _; unfold lin2, of_iv; cbn [w_x w_s w_c w_d w_zL w_zU w_vL w_vU]; rewrite Zv' by (cbn; tauto); ring.
  - eapply iv_is_ext; [exact Hrhs|..]; intros i _; unfold lin2, of_iv; cbn [w_x w_s w_c w_d w_zL w_zU w_vL w_vU]; rewrite Zr' by (cbn; tauto); ring.
Qed.
Lemma solves_ratio d v : solves nx ns nc Y d rhs v -> iv_amax (residuals Y d rhs v) = 0.
Proof.
  intros S0. pose proof (proj1 (resid_zero nx ns nc Y d K rhs v Hrhs (proj1 S0)) S0) as Z. eapply all_zero; [exact Z|..]; reflexivity.
Qed.
Lemma solves_not_gt (s : st) v t : 0 < t -> solves nx ns nc Y (h_cur ho (p_h s)) rhs v -> rgt (ratio_at s v) (Fin t) = false.
Proof.
  intros Ht S0. unfold PdProofs.ratio_at, resid_ratio. rewrite (solves_ratio _ _ S0).
  destruct (Req_EM_T (iv_amax rhs + iv_amax v) 0); cbn [rgt]; [destruct (Rlt_dec t 0); [lra|reflexivity]|].
  destruct (Req_EM_T _ 0) as [|N]; [destruct (Req_EM_T 0 0); [reflexivity|congruence]|].
  cbn [rgt]. destruct (Rlt_dec t _) as [L|]; [|reflexivity]. unfold Rdiv in L. rewrite Rmult_0_l in L. lra.
Qed.
Lemma not_gt_small (s : st) v t : iv_ok nx ns nc Y v -> 0 < t -> rgt (ratio_at s v) (Fin t) = false -> resid_small t rhs v (residuals Y (h_cur ho (p_h s)) rhs v).
Proof.
  intros Hv Ht G a b c Ha Hb Hc. unfold PdProofs.ratio_at, resid_ratio in G.
  rewrite <- (maxabs_unique _ _ _ Ha (iv_amax_is rhs)), <- (maxabs_unique _ _ _ Hb (iv_amax_is v)), <- (maxabs_unique _ _ _ Hc (iv_amax_is _)) in G.
  pose proof (maxabs_pos _ _ Ha) as Pa. pose proof (maxabs_pos _ _ Hb) as Pb. pose proof (maxabs_pos _ _ Hc) as Pc.
  destruct (Req_EM_T (a + b) 0) as [E|E].
  - assert (a = 0) by lra. assert (b = 0) by lra. subst a b.
    assert (S0 : solves nx ns nc Y (h_cur ho (p_h s)) rhs v).
    { apply zero_solves; [exact Hv|apply (maxabs_unique _ _ _ (iv_amax_is _) Ha)|apply (maxabs_unique _ _ _ (iv_amax_is _) Hb)]. }
    apply solves_ratio in S0. rewrite (maxabs_unique _ _ _ Hc (iv_amax_is _)), S0. unfold Rmin. destruct (Rle_dec 0 (1000000 * 0)); lra.
  - set (den := Rmin b (1000000 * a) + a) in *.
    assert (Pd : 0 <= den) by (unfold den, Rmin; destruct (Rle_dec b (1000000 * a)); lra).
    destruct (Req_EM_T den 0) as [D|D].
    + destruct (Req_EM_T c 0) as [->|]; [|discriminate]. rewrite D. lra.
    + cbn [rgt] in G. destruct (Rlt_dec t (c / den)) as [|L]; [discriminate|]. apply Rnot_lt_le in L.
      apply (Rmult_le_compat_r den) in L; [|exact Pd]. unfold Rdiv in L. rewrite Rmult_assoc, Rinv_l, Rmult_1_r in L by exact D. exact L.
Qed.
Lemma lt_below (s : st) v t : rgt (Fin t) (ratio_at s v) = true -> resid_below t rhs v (residuals Y (h_cur ho (p_h s)) rhs v).
Proof.
  intros G a b c Ha Hb Hc NZ. unfold PdProofs.ratio_at, resid_ratio in G.
  rewrite <- (maxabs_unique _ _ _ Ha (iv_amax_is rhs)), <- (maxabs_unique _ _ _ Hb (iv_amax_is v)), <- (maxabs_unique _ _ _ Hc (iv_amax_is _)) in G.
  pose proof (maxabs_pos _ _ Ha) as Pa. pose proof (maxabs_pos _ _ Hb) as Pb.
  destruct (Req_EM_T (a + b) 0) as [E|E]; [exfalso; destruct NZ; lra|].
  set (den := Rmin b (1000000 * a) + a) in *.
  assert (Pd : 0 <= den) by (unfold den, Rmin; destruct (Rle_dec b (1000000 * a)); lra).
  destruct (Req_EM_T den 0) as [D|D]; [destruct (Req_EM_T c 0); discriminate|].
  cbn [rgt] in G. destruct (Rlt_dec (c / den) t) as [L|]; [|discriminate].
  apply (Rmult_lt_compat_r den) in L; [|lra]. unfold Rdiv in L. rewrite Rmult_assoc, Rinv_l, Rmult_1_r in L by exact D. exact L.
Qed.

(** a solver with answers of the right dimensions *)
Hypothesis SD : solver_dims nx ns nc ao Y.
Lemma once_ok_dims fo refn pretend al be b v (s s' : st) w : iv_ok nx ns nc Y b -> iv_ok nx ns nc Y v ->
  solve_once ho ao o fo Y refn pretend al be b v s = (Some (Some w), s') -> iv_ok nx ns nc Y w.
Proof.
  intros Hb Hv E. destruct (op_ok _ _ _ _ _ _ _ _ _ _ _ _ _ (solve_once_post ho ao o Y HO _ _ _ _ _ _ _ _ _ _ E) w eq_refl) as (x & a & a' & chk & n & Ex & ->).
  eapply iv_is_ok, iv_add_one; [|exact Hv]. apply (back_subst_is nx ns nc Y (h_cur ho (p_h s)) K b x Hb). apply (SD _ _ _ _ _ _ _ Ex).
Qed.
Lemma refine_dims fo fuel : forall n f res (s s' : st) ratio rold f' res', iv_ok nx ns nc Y res ->
  refine ho ao o fuel fo Y rhs n ratio rold f res (residuals Y (h_cur ho (p_h s)) rhs res) s = (Some (Some (f', res')), s') -> iv_ok nx ns nc Y res'.
Proof.
  induction fuel as [|fuel IH]; intros n f res s s' ratio rold f' res' Hres E; cbn [refine] in E;
    (destruct (Nat.ltb n (min_ref o) || rgt ratio (Fin (rr_max o))) eqn:C; [|injection E as <- <- <-; exact Hres]); [discriminate|].
  destruct (solve_once ho ao o fo Y true false (-1) 1 (residuals Y (h_cur ho (p_h s)) rhs res) res s) as [r s1] eqn:CS.
  destruct r as [[res1|]|]; [|discriminate|discriminate].
  assert (H1 : iv_ok nx ns nc Y res1).
  { eapply once_ok_dims; [|exact Hres|exact CS]. eapply iv_is_ok, residuals_is; eassumption. }
  cbv zeta in E. match type of E with context [if ?g then _ else _] => destruct g eqn:G end.
  - destruct (give_up ao o _ f s1) as [f2 s2]. injection E as <- <- <-. exact H1.
  - eapply IH; [exact H1|exact E].
Qed.
Lemma loop_dims fr fo fuel : forall inexact improve f res (s s' : st) v, iv_ok nx ns nc Y res ->
  solve_loop ho ao o fuel fr fo Y inexact improve rhs f res s = (R_true v, s') -> iv_ok nx ns nc Y v.
Proof.
  induction fuel as [|fuel IH]; intros inexact improve f res s s' v Hres E; cbn [solve_loop] in E; [discriminate|].
  destruct (if improve then (Some (Some res), f, s)
            else let '(r, s) := solve_once ho ao o fo Y false (f_pretend f) 1 0 rhs res s in (r, Fl false false (f_last f), s)) as [[r1 f1] s1] eqn:C1.
  assert (I1 : forall w, r1 = Some (Some w) -> iv_ok nx ns nc Y w).
  { intros w Ew. destruct improve; [injection C1 as <- <- <-; injection Ew as <-; exact Hres|].
    destruct (solve_once ho ao o fo Y false (f_pretend f) 1 0 rhs res s) as [r0 s0] eqn:CS. injection C1 as <- <- <-. subst r0.
    eapply once_ok_dims; [exact Hrhs|exact Hres|exact CS]. }
  clear C1. destruct r1 as [[res1|]|]; [|discriminate|discriminate]. specialize (I1 _ eq_refl).
  destruct inexact; [injection E as <- <-; exact I1|]. cbv zeta in E.
  match type of E with context [refine ho ao o fr fo Y rhs ?n ?a ?b f1 res1 ?c s1] => destruct (refine ho ao o fr fo Y rhs n a b f1 res1 c s1) as [q s2] eqn:C2 end.
  destruct q as [[[f2 res2]|]|]; [|discriminate|discriminate].
  pose proof (refine_dims _ _ _ _ _ _ _ _ _ _ _ I1 C2) as I2.
  destruct (negb (f_resolve f2) && negb (f_pretend f2)); [injection E as <- <-; exact I2|]. eapply IH; [exact I2|exact E].
Qed.
End Exact.

Section Exact2.
Variables (nx ns nc : nat).
Hypothesis K : sys_ok nx ns nc Y.
Hypothesis Hrhs : iv_ok nx ns nc Y rhs.
Hypothesis SE : solver_exact nx ns nc ao Y.
Lemma exact_dims : solver_dims nx ns nc ao Y.
Proof. intros a d b chk n x a' E. apply (SE _ _ _ _ _ _ _ E). Qed.

Lemma once_exact fo refn pretend b v (s s' : st) w : iv_ok nx ns nc Y b -> iv_ok nx ns nc Y v ->
  solve_once ho ao o fo Y refn pretend 1 0 b v s = (Some (Some w), s') -> solves nx ns nc Y (h_cur ho (p_h s')) b w.
Proof.
  intros Hb Hv E. destruct (op_ok _ _ _ _ _ _ _ _ _ _ _ _ _ (solve_once_post ho ao o Y HO _ _ _ _ _ _ _ _ _ _ E) w eq_refl) as (x & a & a' & chk & n & Ex & ->).
  pose proof (back_subst_solves nx ns nc Y _ K b x Hb (SE _ _ _ _ _ _ _ Ex)) as [S1 S2].
  pose proof (iv_add_one nx ns nc Y 1 0 _ _ S1 Hv) as L. split; [exact (iv_is_ok _ _ _ _ _ _ L)|].
  apply (newton_lin nx ns nc Y _ K _ _ _ _ _ _ L). eapply iv_is_ext; [exact S2|..]; intros i _; unfold lin2; cbn [w_x w_s w_c w_d w_zL w_zU w_vL w_vU]; ring.
Qed.
(** one refinement step, from any point *)
Lemma step_exact fo v (s s' : st) w : cached s -> iv_ok nx ns nc Y v ->
  solve_once ho ao o fo Y true false (-1) 1 (residuals Y (h_cur ho (p_h s)) rhs v) v s = (Some (Some w), s') ->
  solves nx ns nc Y (h_cur ho (p_h s')) rhs w /\ p_h s' = p_h s.
Proof.
  intros Cs Hv E. pose proof (solve_once_post ho ao o Y HO _ _ _ _ _ _ _ _ _ _ E) as PO.
  pose proof (op_h _ _ _ _ _ _ _ _ _ _ _ _ _ PO Cs eq_refl) as Eh. split; [|exact Eh].
  destruct (op_ok _ _ _ _ _ _ _ _ _ _ _ _ _ PO w eq_refl) as (x & a & a' & chk & n & Ex & ->). rewrite Eh in *.
  set (d := h_cur ho (p_h s)) in *.
  pose proof (residuals_is nx ns nc Y d K rhs v Hrhs Hv) as R1. pose proof (iv_is_ok _ _ _ _ _ _ R1) as R2.
  pose proof (back_subst_solves nx ns nc Y d K _ x R2 (SE _ _ _ _ _ _ _ Ex)) as [S1 S2].
  pose proof (iv_add_one nx ns nc Y (-1) 1 _ _ S1 Hv) as L. split; [exact (iv_is_ok _ _ _ _ _ _ L)|].
  apply (newton_lin nx ns nc Y d K _ _ _ _ _ _ L).
  destruct R1 as ((_&R11)&(_&R12)&(_&R13)&(_&R14)&(_&R15)&(_&R16)&(_&R17)&(_&R18)).
  destruct S2 as ((_&S21)&(_&S22)&(_&S23)&(_&S24)&(_&S25)&(_&S26)&(_&S27)&(_&S28)).
  unfold lin2 in *. unfold of_iv in R11, R12, R13, R14, R15, R16, R17, R18. cbn [w_x w_s w_c w_d w_zL w_zU w_vL w_vU] in *.
  eapply iv_is_ext; [exact Hrhs|..]; intros i Hi; unfold of_iv; cbn [w_x w_s w_c w_d w_zL w_zU w_vL w_vU].
  - rewrite <- S21, R11 by exact Hi. ring.
  - rewrite <- S22, R12 by exact Hi. ring.
  - rewrite <- S23, R13 by exact Hi. ring.
  - rewrite <- S24, R14 by exact Hi. ring.
  - rewrite <- S25, R15 by exact Hi. ring.
  - rewrite <- S26, R16 by exact Hi. ring.
  - rewrite <- S27, R17 by exact Hi. ring.
  - rewrite <- S28, R18 by exact Hi. ring.
Qed.
(** the loop, from a point that is a solution or will be after one step *)
Lemma refine_exact fo fuel : forall n f res (s s' : st) rold q, cached s -> iv_ok nx ns nc Y res ->
  (solves nx ns nc Y (h_cur ho (p_h s)) rhs res \/ n = O) ->
  refine ho ao o fuel fo Y rhs n (ratio_at s res) rold f res (residuals Y (h_cur ho (p_h s)) rhs res) s = (Some (Some q), s') ->
  p_h s' = p_h s /\ fst q = f /\
  (solves nx ns nc Y (h_cur ho (p_h s')) rhs (snd q) \/ (snd q = res /\ min_ref o = O /\ rgt (ratio_at s res) (Fin (rr_max o)) = false)) /\
  exists new, p_ev s' = new ++ p_ev s /\ count is_singular new = O /\
    (solves nx ns nc Y (h_cur ho (p_h s)) rhs res -> (n + count is_ref new = Nat.max n (min_ref o))%nat).
Proof.
  pose proof (po_max _ OO) as PM.
  induction fuel as [|fuel IH]; intros n f res s s' rold q Cs Hres Hs E; cbn [refine] in E;
    destruct (Nat.ltb n (min_ref o) || rgt (ratio_at s res) (Fin (rr_max o))) eqn:C.
  1: discriminate.
  1,3: injection E as <- <-; apply orb_false_iff in C; destruct C as [C1 C2]; apply Nat.ltb_ge in C1; cbn [fst snd];
       (split; [reflexivity|]); (split; [reflexivity|]); (split; [destruct Hs as [Hs| ->]; [left; exact Hs|right; splits; auto; lia]|]);
       exists []; splits; auto; cbn; lia.
  destruct (solve_once ho ao o fo Y true false (-1) 1 (residuals Y (h_cur ho (p_h s)) rhs res) res s) as [r s1] eqn:CS.
  destruct r as [[res1|]|]; [|discriminate|discriminate].
  destruct (step_exact _ _ _ _ _ Cs Hres CS) as [S1 Eh].
  pose proof (solve_once_post ho ao o Y HO _ _ _ _ _ _ _ _ _ _ CS) as [pc _ _ (n1 & Pe & Pf & _ & Pi) _ _ _]. specialize (Pi ltac:(discriminate)).
  change (resid_ratio rhs res1 (residuals Y (h_cur ho (p_h s1)) rhs res1)) with (ratio_at s1 res1) in E.
  rewrite (solves_not_gt nx ns nc K Hrhs s1 res1 (rr_max o) PM S1) in E. cbn [andb] in E.
  destruct (IH (S n) f res1 s1 s' (ratio_at s1 res1) q pc (proj1 S1) (or_introl S1) E) as (I1 & I2 & I3 & (n2 & J1 & J2 & J4)).
  split; [congruence|]. split; [exact I2|]. split.
  { left. destruct I3 as [I3|(I3 & _)]; [exact I3|]. rewrite I3. rewrite I1. exact S1. }
  destruct (once_count Y _ Pf) as [N1 N2].
  exists (n2 ++ n1 ++ [E_once (y_id Y) true]). rewrite !count_app, J2, N1, J1, Pe.
  split; [rewrite <- !app_assoc; reflexivity|].
  split.
  { cbn. rewrite Nat.add_0_r. apply count_zero. eapply Forall_impl; [|exact Pf]. intros e [Q| ->]; [|reflexivity]. destruct e; try reflexivity; destruct Q. }
  intros S0. specialize (J4 S1). cbn. rewrite (solves_not_gt nx ns nc K Hrhs s res (rr_max o) PM S0), orb_false_r in C. apply Nat.ltb_lt in C. lia.
Qed.
Lemma once_sing new : Forall (once_ev Y) new -> count is_singular new = O.
Proof. intros Pf. apply count_zero. eapply Forall_impl; [|exact Pf]. intros e [Q| ->]; [|reflexivity]. destruct e; try reflexivity; destruct Q. Qed.
Lemma loop_exact fr fo fuel inexact improve f res (s s' : st) v : iv_ok nx ns nc Y res -> (improve = true -> cached s /\ inexact = false) ->
  f_resolve f = false -> f_pretend f = false ->
  solve_loop ho ao o fuel fr fo Y inexact improve rhs f res s = (R_true v, s') ->
  (solves nx ns nc Y (h_cur ho (p_h s')) rhs v \/
   (improve = true /\ v = res /\ min_ref o = O /\ resid_small (rr_max o) rhs v (residuals Y (h_cur ho (p_h s')) rhs v))) /\
  exists new, p_ev s' = new ++ p_ev s /\ count is_singular new = O /\
    (improve = false -> inexact = false -> count is_first new = 1%nat /\ count is_ref new = min_ref o).
Proof.
  pose proof (po_max _ OO) as PM.
  intros Hres Him Fr Fp E. destruct fuel as [|fuel]; cbn [solve_loop] in E; [discriminate|].
  destruct improve.
  - destruct (Him eq_refl) as [Cs ->]. cbv zeta in E.
    change (resid_ratio rhs res (residuals Y (h_cur ho (p_h s)) rhs res)) with (ratio_at s res) in E.
    destruct (refine ho ao o fr fo Y rhs 0 (ratio_at s res) (ratio_at s res) f res (residuals Y (h_cur ho (p_h s)) rhs res) s) as [q s2] eqn:C2.
    destruct q as [[[f2 res2]|]|]; [|discriminate|discriminate].
    destruct (refine_exact _ _ _ _ _ _ _ _ _ Cs Hres (or_intror eq_refl) C2) as (I1 & I2 & I3 & (n2 & J1 & J2 & _)). cbn [fst snd] in *. subst f2.
    rewrite Fr, Fp in E. cbn in E. injection E as <- <-. split; [|exists n2; splits; auto; discriminate].
    destruct I3 as [I3|(-> & I3 & I4)]; [left; exact I3|]. right. splits; auto. rewrite I1. apply (not_gt_small nx ns nc K Hrhs); auto.
  - destruct (solve_once ho ao o fo Y false (f_pretend f) 1 0 rhs res s) as [r0 s0] eqn:CS.
    destruct r0 as [[res1|]|]; [|discriminate|discriminate].
    pose proof (once_exact _ _ _ _ _ _ _ _ Hrhs Hres CS) as S1.
    pose proof (solve_once_post ho ao o Y HO _ _ _ _ _ _ _ _ _ _ CS) as [pc _ _ (n1 & Pe & Pf & _ & _) _ _ _].
    destruct (once_count Y _ Pf) as [N1 N2]. pose proof (once_sing _ Pf) as N3.
    destruct inexact.
    + injection E as <- <-. split; [left; exact S1|]. exists (n1 ++ [E_once (y_id Y) false]). rewrite Pe, <- app_assoc, !count_app, N3. splits; try reflexivity. discriminate.
    + cbv zeta in E. change (resid_ratio rhs res1 (residuals Y (h_cur ho (p_h s0)) rhs res1)) with (ratio_at s0 res1) in E.
      destruct (refine ho ao o fr fo Y rhs 0 (ratio_at s0 res1) (ratio_at s0 res1) (Fl false false (f_last f)) res1 (residuals Y (h_cur ho (p_h s0)) rhs res1) s0) as [q s2] eqn:C2.
      destruct q as [[[f2 res2]|]|]; [|discriminate|discriminate].
      destruct (refine_exact _ _ _ _ _ _ _ _ _ pc (proj1 S1) (or_introl S1) C2) as (I1 & I2 & I3 & (n2 & J1 & J2 & J3)). cbn [fst snd] in *. subst f2.
      cbn in E. injection E as <- <-. split.
      * left. destruct I3 as [I3|(-> & _)]; [exact I3|]. rewrite I1. exact S1.
      * pose proof (refine_facts ho ao o Y HO rhs OO fr fo O _ _ _ _ _ _ (or_introl (Nat.le_0_l _)) C2) as [(n3 & K1 & K2 & _) _ _].
        assert (n3 = n2) by (rewrite J1 in K1; apply app_inv_tail in K1; congruence). subst n3.
        exists (n2 ++ n1 ++ [E_once (y_id Y) false]). rewrite J1, Pe, <- !app_assoc, !count_app, N1, N2, N3, J2, K2. splits; try reflexivity.
        intros _ _. specialize (J3 S1). cbn in *. lia.
Qed.
End Exact2.
End Loop.
