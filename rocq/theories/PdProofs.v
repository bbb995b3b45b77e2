(** Control flow of PDFullSpaceSolver::Solve, for every linear solver and perturbation handler. *)
From Coq Require Import Reals List Arith Bool Lra Lia.
From Verif Require Import CQModel CQSpec CQVec PdModel PdSpec PdAlg.
Import ListNotations.
Open Scope R_scope.

Section Proofs.
Context {H A : Type}.
Variables (ho : hops H) (ao : augops A) (o : popts) (Y : psys).
Hypothesis HO : handler_ok ho.
Notation st := (pst H A).

(** events of the loop over the perturbations *)
Definition inner (e : event) : Prop := match e with E_aug id _ _ _ => id = y_id Y | E_quality _ => True | _ => False end.

Lemma call_aug_facts d b chk n (s s' : st) r x : call_aug ao Y d b chk n s = (r, x, s') ->
  p_h s' = p_h s /\ p_impr s' = p_impr s /\ p_cache s' = p_cache s /\ p_ev s' = E_aug (y_id Y) d chk r :: p_ev s /\
  exists a a', a_solve ao a Y d b chk n = (r, x, a').
Proof.
  unfold call_aug. destruct (a_solve ao (p_a s) Y d b chk n) as [[r0 x0] a0] eqn:C. intros E.
  injection E as <- <- <-. cbn. repeat split; eauto.
Qed.
Lemma call_incr_facts (s : st) : exists b, p_h (call_incr ao s) = p_h s /\ p_impr (call_incr ao s) = b /\ p_cache (call_incr ao s) = p_cache s /\
  p_ev (call_incr ao s) = E_quality b :: p_ev s.
Proof. unfold call_incr. destruct (a_incr ao (p_a s)) as [b a]. exists b. cbn. auto. Qed.

Definition loop_post (b : av) (s : st) (r : option (option av)) (s' : st) : Prop :=
  p_cache s' = p_cache s /\ (p_impr s = true -> p_impr s' = true) /\
  (exists new, p_ev s' = new ++ p_ev s /\ Forall inner new /\ (p_impr s = true -> forall q, ~ In (E_quality q) new)) /\
  (forall x, r = Some (Some x) ->
     (exists a a', a_solve ao a Y (h_cur ho (p_h s')) b (negb (curv_on o)) (dim (ac b) + dim (ad b))%nat = (SUCCESS, x, a')) /\
     In (E_aug (y_id Y) (h_cur ho (p_h s')) (negb (curv_on o)) SUCCESS) (p_ev s')).

Lemma loop_post_step b (s s1 s2 : st) r : loop_post b s1 r s2 -> p_cache s1 = p_cache s -> (p_impr s = true -> p_impr s1 = true) ->
  (exists new, p_ev s1 = new ++ p_ev s /\ Forall inner new /\ (p_impr s = true -> forall q, ~ In (E_quality q) new)) -> loop_post b s r s2.
Proof.
  intros (C & I & (n2 & E & F & Q) & X) C1 I1 (n1 & E1 & F1 & Q1). split; [congruence|]. split; [auto|]. split; [|exact X].
  exists (n2 ++ n1). rewrite E, E1, app_assoc. split; [reflexivity|]. split; [apply Forall_app; auto|].
  intros J q K. apply in_app_or in K. destruct K as [K|K]; [apply (Q (I1 J) q K)|apply (Q1 J q K)].
Qed.
Lemma loop_post_set_h b (s : st) h r s2 : loop_post b (set_h s h) r s2 -> loop_post b s r s2.
Proof. intros P. exact P. Qed.
Lemma loop_post_stop b (s : st) h : loop_post b s (Some None) (set_h s h).
Proof. split; [reflexivity|]. split; [auto|]. split; [exists []; repeat split; [constructor|intros _ q []]|]. intros x E. discriminate. Qed.
Lemma loop_post_none b (s : st) : loop_post b s None s.
Proof. split; [reflexivity|]. split; [auto|]. split; [exists []; repeat split; [constructor|intros _ q []]|]. intros x E. discriminate. Qed.
Lemma loop_post_fail b (s : st) : loop_post b s (Some None) s.
Proof. split; [reflexivity|]. split; [auto|]. split; [exists []; repeat split; [constructor|intros _ q []]|]. intros x E. discriminate. Qed.

Lemma pert_loop_post fuel : forall b pretend d (s s' : st) r, h_cur ho (p_h s) = d ->
  pert_loop ho ao o fuel Y b pretend d s = (r, s') -> loop_post b s r s'.
Proof.
  destruct HO as (Hn & Hs & Hi).
  induction fuel as [|fuel IH]; intros b pretend d s s' r Hd E.
  { cbn in E. injection E as <- <-. apply loop_post_none. }
  cbn [pert_loop] in E.
  set (nev := (dim (ac b) + dim (ad b))%nat) in *.
  assert (AS : forall s0 : st, match h_sing ho (p_h s0) with (None, h) => (Some None, set_h s0 h)
            | (Some d', h) => pert_loop ho ao o fuel Y b false d' (set_h s0 h) end = (r, s') -> loop_post b s0 r s').
  { intros s0. pose proof (Hs (p_h s0)) as Hs0. destruct (h_sing ho (p_h s0)) as [[d'|] h]; intros E0.
    - apply (loop_post_set_h _ _ h). eapply IH; [|exact E0]. exact (Hs0 d' eq_refl).
    - injection E0 as <- <-. apply loop_post_stop. }
  assert (AI : forall s0 : st, match h_inertia ho (p_h s0) with (None, h) => (Some None, set_h s0 h)
            | (Some d', h) => pert_loop ho ao o fuel Y b false d' (set_h s0 h) end = (r, s') -> loop_post b s0 r s').
  { intros s0. pose proof (Hi (p_h s0)) as Hs0. destruct (h_inertia ho (p_h s0)) as [[d'|] h]; intros E0.
    - apply (loop_post_set_h _ _ h). eapply IH; [|exact E0]. exact (Hs0 d' eq_refl).
    - injection E0 as <- <-. apply loop_post_stop. }
  destruct pretend.
  { destruct (Nat.ltb 0 nev); [apply AS; exact E|apply AI; exact E]. }
  destruct (call_aug ao Y d b (negb (curv_on o)) nev s) as [[q x] s1] eqn:C.
  destruct (call_aug_facts _ _ _ _ _ _ _ _ C) as (Ch & Ci & Cc & Ce & a & a' & Ca).
  assert (STEP : forall r2 s2, loop_post b s1 r2 s2 -> loop_post b s r2 s2).
  { intros r2 s2 P. eapply loop_post_step; [exact P|exact Cc|rewrite Ci; auto|].
    exists [E_aug (y_id Y) d (negb (curv_on o)) q]. rewrite Ce. split; [reflexivity|]. split; [constructor; [reflexivity|constructor]|].
    intros _ q' [K|[]]. discriminate. }
  apply STEP. destruct q.
  - destruct (curv_on o && negb (Nat.eqb (a_neg ao (p_a s1)) nev) && bad_curvature o Y d x) eqn:B.
    + apply AI; exact E.
    + injection E as <- <-. split; [reflexivity|]. split; [auto|]. split; [exists []; repeat split; [constructor|intros _ q []]|].
      intros x0 E0. injection E0 as <-. rewrite Ch, Hd. split; [exists a, a'; exact Ca|]. rewrite Ce. left. reflexivity.
  - destruct (Nat.ltb 0 nev); [apply AS; exact E|apply AI; exact E].
  - destruct (Nat.ltb (a_neg ao (p_a s1)) nev).
    + destruct (p_impr s1) eqn:P1.
      * cbn [negb andb] in E. apply AS; exact E.
      * destruct (call_incr_facts s1) as (bq & Q1 & Q2 & Q3 & Q4).
        assert (PI : forall r2 s2, loop_post b (call_incr ao s1) r2 s2 -> loop_post b s1 r2 s2).
        { intros r2 s2 P. eapply loop_post_step; [exact P|exact Q3|rewrite P1; discriminate|].
          exists [E_quality bq]. rewrite Q4. split; [reflexivity|]. split; [constructor; [exact I|constructor]|]. rewrite P1. discriminate. }
        apply PI. destruct (p_impr (call_incr ao s1)); cbn [negb andb] in E.
        -- eapply IH; [|exact E]. rewrite Q1, Ch. exact Hd.
        -- apply AS; exact E.
    + apply AI; exact E.
  - destruct (curv_on o && negb (Nat.eqb (a_neg ao (p_a s1)) nev) && bad_curvature o Y d x) eqn:B.
    + apply AI; exact E.
    + eapply IH; [|exact E]. rewrite Ch. exact Hd.
  - injection E as <- <-. apply loop_post_fail.
Qed.

(** SolveOnce *)
Definition cached (s : st) : Prop := p_cache s = Some (y_id Y).
Definition once_ev (e : event) : Prop := inner e \/ e = E_fail (y_id Y).
Record once_post (refn pretend : bool) (alpha beta : R) (rhs res : iv) (s : st) (r : option (option iv)) (s' : st) : Prop := {
  op_cache : cached s';
  op_impr : cached s -> p_impr s = true -> p_impr s' = true;
  op_h : cached s -> pretend = false -> p_h s' = p_h s;
  op_ev : exists new, p_ev s' = new ++ E_once (y_id Y) refn :: p_ev s /\ Forall once_ev new /\
            (cached s -> p_impr s = true -> forall q, ~ In (E_quality q) new) /\ (r <> Some None -> Forall inner new);
  op_fail : r = Some None -> In (E_fail (y_id Y)) (p_ev s');
  op_ok : forall v, r = Some (Some v) -> exists x a a' chk n,
            a_solve ao a Y (h_cur ho (p_h s')) (aug_rhs Y rhs) chk n = (SUCCESS, x, a') /\
            v = ivmap2 (fun v y => add_one alpha v beta y) (back_subst Y rhs x) res;
  op_chk : forall v, r = Some (Some v) -> (cached s /\ pretend = false) \/ In (E_aug (y_id Y) (h_cur ho (p_h s')) (negb (curv_on o)) SUCCESS) (p_ev s')
}.
Lemma solve_once_post fo refn pretend alpha beta rhs res (s s' : st) r :
  solve_once ho ao o fo Y refn pretend alpha beta rhs res s = (r, s') -> once_post refn pretend alpha beta rhs res s r s'.
Proof.
  unfold solve_once. cbn [log p_cache].
  set (s0 := log s (E_once (y_id Y) refn)).
  set (u := match p_cache s with Some k => if list_eq_dec Nat.eq_dec k (y_id Y) then true else false | None => false end).
  assert (U : u = true <-> cached s).
  { unfold u, cached. destruct (p_cache s) as [k|]; [|split; discriminate]. destruct (list_eq_dec Nat.eq_dec k (y_id Y)) as [->|N]; split; intros E; auto; try discriminate. congruence. }
  clearbody u.
  destruct (u && negb pretend) eqn:UP.
  - apply andb_true_iff in UP. destruct UP as [Uu Up]. rewrite Uu. apply U in Uu. destruct pretend; [discriminate|].
    destruct (call_aug ao Y (h_cur ho (p_h s0)) (aug_rhs Y rhs) false 0 s0) as [[q x] s1] eqn:C.
    destruct (call_aug_facts _ _ _ _ _ _ _ _ C) as (Ch & Ci & Cc & Ce & a & a' & Ca).
    assert (G : r = match q with SUCCESS => Some (Some (ivmap2 (fun v y => add_one alpha v beta y) (back_subst Y rhs x) res)) | _ => Some None end /\
                s' = match q with SUCCESS => s1 | _ => log s1 (E_fail (y_id Y)) end -> once_post refn false alpha beta rhs res s r s').
    { intros [-> ->]. assert (Cs : cached s1) by (unfold cached; rewrite Cc; exact Uu).
      constructor.
      - destruct q; exact Cs.
      - intros _ P. destruct q; cbn; rewrite Ci; exact P.
      - intros _ _. destruct q; exact Ch.
      - destruct q; cbn [log p_ev]; rewrite Ce.
        1: exists [E_aug (y_id Y) (h_cur ho (p_h s0)) false SUCCESS].
        2: exists [E_fail (y_id Y); E_aug (y_id Y) (h_cur ho (p_h s0)) false SINGULAR].
        3: exists [E_fail (y_id Y); E_aug (y_id Y) (h_cur ho (p_h s0)) false WRONG_INERTIA].
        4: exists [E_fail (y_id Y); E_aug (y_id Y) (h_cur ho (p_h s0)) false CALL_AGAIN].
        5: exists [E_fail (y_id Y); E_aug (y_id Y) (h_cur ho (p_h s0)) false FATAL_ERROR].
        all: (split; [reflexivity|]); (split; [repeat constructor; unfold once_ev; cbn; auto|]);
             (split; [intros _ _ q' K; cbn in K; intuition discriminate|]); intros N; try congruence; repeat constructor.
      - destruct q; intros E; try discriminate; left; reflexivity.
      - intros v E. destruct q; try discriminate. injection E as <-. exists x, a, a', false, O. rewrite Ch. split; [exact Ca|reflexivity].
      - intros v E. left. auto. }
    destruct q; intros E; injection E as <- <-; apply G; auto.
  - destruct (h_new ho (p_h (if u then s0 else set_impr (set_cache s0 (Some (y_id Y))) false))) as [d h] eqn:Hn.
    set (s1 := set_h (if u then s0 else set_impr (set_cache s0 (Some (y_id Y))) false) h).
    destruct (pert_loop ho ao o fo Y (aug_rhs Y rhs) pretend d s1) as [q s2] eqn:C.
    assert (C1 : cached s1). { unfold s1, cached. destruct u; [apply U; reflexivity|reflexivity]. }
    assert (Hc : h_cur ho (p_h s1) = d). { unfold s1. cbn. destruct HO as (N & _). match type of Hn with h_new ho ?t = _ => specialize (N t) end. rewrite Hn in N. exact N. }
    assert (NU : cached s -> pretend = true). { intros K. apply U in K. rewrite K in UP. destruct pretend; [reflexivity|discriminate]. }
    destruct (pert_loop_post _ _ _ _ _ _ _ Hc C) as (Pc & Pi & (new & Pe & Pf & Pq) & Px).
    assert (E1 : p_ev s1 = E_once (y_id Y) refn :: p_ev s). { unfold s1. destruct u; reflexivity. }
    rewrite E1 in Pe.
    assert (I1 : cached s -> p_impr s1 = p_impr s). { intros K. apply U in K. unfold s1. rewrite K. reflexivity. }
    assert (C2 : cached s2) by (unfold cached; rewrite Pc; exact C1).
    assert (OE : Forall once_ev new) by (eapply Forall_impl; [|exact Pf]; intros e He; left; exact He).
    destruct q as [[x|]|]; intros E; injection E as <- <-; constructor; cbn [log p_ev p_cache p_impr p_h]; try exact C2;
      try (intros K1 K2; apply Pi; rewrite I1; assumption); try (intros K1 K2; rewrite (NU K1) in K2; discriminate);
      try (intros E; discriminate E); try (intros v E; discriminate E).
    + exists new. split; [exact Pe|]. split; [exact OE|]. split; [intros K1 K2; apply Pq; rewrite I1; assumption|intros _; exact Pf].
    + intros v E. injection E as <-. destruct (Px x eq_refl) as ((a & a' & Pa) & _). eauto 10.
    + intros v E. injection E as <-. destruct (Px x eq_refl) as (_ & Pa). auto.
    + exists (E_fail (y_id Y) :: new). split; [cbn; rewrite Pe; reflexivity|]. split; [constructor; [right; reflexivity|exact OE]|].
      split; [intros K1 K2 q [E|E]; [discriminate|]; apply (Pq ltac:(rewrite I1; assumption) q E)|]. intros N. congruence.
    + intros _. left. reflexivity.
    + exists new. split; [exact Pe|]. split; [exact OE|]. split; [intros K1 K2; apply Pq; rewrite I1; assumption|intros _; exact Pf].
Qed.

(** giving up on refinement *)
Lemma give_up_facts ratio f (s s' : st) f' : give_up ao o ratio f s = (f', s') ->
  p_h s' = p_h s /\ p_cache s' = p_cache s /\ (p_impr s = true -> p_impr s' = true) /\
  (exists new, p_ev s' = new ++ p_ev s /\ count is_first new = O /\ count is_ref new = O /\
     (f_last f = false -> p_impr s' = true \/ In (E_quality false) new) /\
     (f_pretend f' = true -> In E_singular new)) /\
  (f' = Fl false false true /\ (f_last f = true \/ rgt (Fin (rr_sing o)) ratio = true) \/
   f' = Fl true false false /\ f_last f = false /\ p_impr s = false /\ p_impr s' = true \/
   f' = Fl false true true /\ f_last f = false /\ rgt (Fin (rr_sing o)) ratio = false).
Proof.
  unfold give_up. destruct (f_last f) eqn:L.
  { intros E. injection E as <- <-. split; [reflexivity|]. split; [reflexivity|]. split; [auto|]. split.
    - exists []. splits; try reflexivity; discriminate.
    - left. auto. }
  destruct (p_impr s) eqn:P.
  { cbn [negb andb]. destruct (rgt (Fin (rr_sing o)) ratio) eqn:Q; intros E; injection E as <- <-; cbn [log p_h p_cache p_impr p_ev];
      (split; [reflexivity|]); (split; [reflexivity|]); (split; [auto|]); split.
    - exists []. splits; try reflexivity; auto. discriminate.
    - left. auto.
    - exists [E_singular]. splits; try reflexivity; auto. intros _. left. reflexivity.
    - right. right. splits; auto. }
  destruct (call_incr_facts s) as (bq & Q1 & Q2 & Q3 & Q4). cbn [negb andb]. rewrite Q2. destruct bq.
  { intros E. injection E as <- <-. split; [exact Q1|]. split; [exact Q3|]. split; [congruence|]. split.
    - exists [E_quality true]. rewrite Q4. splits; try reflexivity; auto. discriminate.
    - right. left. auto. }
  destruct (rgt (Fin (rr_sing o)) ratio) eqn:Q; intros E; injection E as <- <-; cbn [log p_h p_cache p_impr p_ev];
    (split; [exact Q1|]); (split; [exact Q3|]); (split; [congruence|]); split.
  - exists [E_quality false]. rewrite Q4. splits; try reflexivity; try discriminate. intros _. right. left. reflexivity.
  - left. auto.
  - exists [E_singular; E_quality false]. rewrite Q4. splits; try reflexivity. { intros _. right. right. left. reflexivity. } intros _. left. reflexivity.
  - right. right. splits; auto.
Qed.

Lemma count_app p l1 l2 : count p (l1 ++ l2) = (count p l1 + count p l2)%nat.
Proof. unfold count. rewrite filter_app, app_length. reflexivity. Qed.
Lemma count_zero (p : event -> bool) l : Forall (fun e => p e = false) l -> count p l = O.
Proof. unfold count. induction 1 as [|e l E _ IH]; [reflexivity|]. cbn. rewrite E. exact IH. Qed.
Lemma once_count new : Forall (once_ev) new -> count is_ref new = O /\ count is_first new = O.
Proof.
  intros F. split; apply count_zero; (eapply Forall_impl; [|exact F]); intros e [I0| ->]; try reflexivity; destruct e; try reflexivity; destruct I0.
Qed.

Variable rhs : iv.
Definition ratio_at (s : st) (res : iv) : rat := resid_ratio rhs res (residuals Y (h_cur ho (p_h s)) rhs res).

Record ref_post (n : nat) (f : flags) (res : iv) (s : st) (q : option (option (flags * iv))) (s' : st) : Prop := {
  rp_ev : exists new, p_ev s' = new ++ p_ev s /\ count is_first new = O /\
     (n + count is_ref new <= Nat.max n (S (max_ref o)))%nat /\
     (forall f' res', q = Some (Some (f', res')) ->
        (min_ref o <= n + count is_ref new)%nat /\
        ((1 <= count is_ref new)%nat -> cached s') /\
        ((rgt (ratio_at s' res') (Fin (rr_max o)) = false /\ f' = f) \/
         (rgt (ratio_at s' res') (Fin (rr_max o)) = true /\ (min_ref o < n + count is_ref new)%nat /\ cached s' /\
          (f_pretend f' = true -> In E_singular new) /\
          (f_last f = false -> p_impr s' = true \/ In (E_quality false) new) /\
          (f' = Fl false false true /\ (f_last f = true \/ rgt (Fin (rr_sing o)) (ratio_at s' res') = true) \/
           f' = Fl true false false /\ f_last f = false /\ p_impr s' = true /\ (cached s -> p_impr s = false) \/
           f' = Fl false true true /\ f_last f = false))));
  rp_c : cached s -> cached s' /\ p_h s' = p_h s /\ (p_impr s = true -> p_impr s' = true);
  rp_fail : q = Some None -> In (E_fail (y_id Y)) (p_ev s')
}.
Hypothesis OO : popts_ok o.
Lemma refine_facts fuel fo : forall n f res s q s' rold, (n <= max_ref o)%nat \/ rgt (ratio_at s res) (Fin (rr_max o)) = false ->
  refine ho ao o fuel fo Y rhs n (ratio_at s res) rold f res (residuals Y (h_cur ho (p_h s)) rhs res) s = (q, s') ->
  ref_post n f res s q s'.
Proof.
  pose proof (po_mm _ OO) as MM.
  induction fuel as [|fuel IH]; intros n f res s q s' rold Hn E; cbn [refine] in E;
    destruct (Nat.ltb n (min_ref o) || rgt (ratio_at s res) (Fin (rr_max o))) eqn:C.
  - injection E as <- <-. constructor; [exists []; splits; auto; try discriminate; cbn; lia|auto|discriminate].
  - injection E as <- <-. apply orb_false_iff in C. destruct C as [C1 C2]. apply Nat.ltb_ge in C1.
    constructor; [|auto|discriminate]. exists []. cbn. splits; auto; try lia.
    intros f' res' E'. injection E' as <- <-. split; [lia|]. split; [lia|]. left. split; [exact C2|reflexivity].
  - destruct (solve_once ho ao o fo Y true false (-1) 1 (residuals Y (h_cur ho (p_h s)) rhs res) res s) as [r s1] eqn:CS.
    pose proof (solve_once_post _ _ _ _ _ _ _ _ _ _ CS) as PO. destruct PO as [pc pi ph (new1 & Pe & Pf & _ & _) pfail _ _].
    destruct (once_count _ Pf) as [N1 N2].
    assert (Ce : count is_ref (new1 ++ [E_once (y_id Y) true]) = 1%nat /\ count is_first (new1 ++ [E_once (y_id Y) true]) = O)
      by (rewrite !count_app, N1, N2; split; reflexivity).
    assert (Pe' : p_ev s1 = (new1 ++ [E_once (y_id Y) true]) ++ p_ev s) by (rewrite <- app_assoc; exact Pe). clear Pe Pf N1 N2.
    assert (Hbound : (S n <= Nat.max n (S (max_ref o)))%nat).
    { destruct Hn as [Hn|Hn]; [lia|]. apply orb_true_iff in C. destruct C as [C|C]; [apply Nat.ltb_lt in C; lia|congruence]. }
    assert (Hn' : (n <= max_ref o)%nat).
    { destruct Hn as [Hn|Hn]; [lia|]. apply orb_true_iff in C. destruct C as [C|C]; [apply Nat.ltb_lt in C; lia|congruence]. }
    set (new1' := new1 ++ [E_once (y_id Y) true]) in *. clearbody new1'. destruct Ce as [Ce1 Ce2].
    destruct r as [[res1|]|].
    + change (resid_ratio rhs res1 (residuals Y (h_cur ho (p_h s1)) rhs res1)) with (ratio_at s1 res1) in E.
      destruct (rgt (ratio_at s1 res1) (Fin (rr_max o)) && Nat.ltb (min_ref o) (S n) &&
               (Nat.ltb (max_ref o) (S n) || rgt (ratio_at s1 res1) (rscale (rr_impr o) rold))) eqn:G.
      * destruct (give_up ao o (ratio_at s1 res1) f s1) as [f' s2] eqn:GU. injection E as <- <-.
        apply andb_true_iff in G. destruct G as [G _]. apply andb_true_iff in G. destruct G as [G1 G2]. apply Nat.ltb_lt in G2.
        destruct (give_up_facts _ _ _ _ _ GU) as (U1 & U2 & U3 & (new2 & V1 & V2 & V3 & V4 & V5) & U4).
        assert (RA : ratio_at s2 res1 = ratio_at s1 res1) by (unfold ratio_at; rewrite U1; reflexivity).
        constructor; [|intros K; split; [unfold cached; rewrite U2; exact pc|split; [rewrite U1; apply ph; auto|auto]]|discriminate].
        exists (new2 ++ new1'). rewrite !count_app, Ce1, Ce2, V2, V3. split; [rewrite V1, Pe', app_assoc; reflexivity|]. split; [reflexivity|]. split; [lia|].
        intros f2 r2 E2. injection E2 as <- <-. split; [lia|]. split; [intros _; unfold cached; rewrite U2; exact pc|]. right. rewrite RA.
        split; [exact G1|]. split; [lia|]. split; [unfold cached; rewrite U2; exact pc|].
        split; [intros X; apply in_or_app; auto|]. split; [intros X; destruct (V4 X); [auto|right; apply in_or_app; auto]|].
        destruct U4 as [X|[(X1 & X2 & X3 & X4)|(X1 & X2 & X3)]]; [left; exact X| |right; right; auto]. right. left.
        splits; auto. intros K. destruct (p_impr s) eqn:Pm; [|reflexivity]. rewrite (pi K eq_refl) in X3. discriminate.
      * assert (P2 := IH (S n) f res1 s1 q s' (ratio_at s1 res1)).
        assert (G' : (S n <= max_ref o)%nat \/ rgt (ratio_at s1 res1) (Fin (rr_max o)) = false).
        { destruct (rgt (ratio_at s1 res1) (Fin (rr_max o))); [|right; reflexivity]. left. cbn [andb] in G.
          destruct (Nat.ltb_spec (min_ref o) (S n)); [|lia]. cbn [andb] in G. destruct (Nat.ltb_spec (max_ref o) (S n)); [discriminate|lia]. }
        specialize (P2 G' E). destruct P2 as [(new2 & V1 & V2 & V3 & V4) Vc Vf]. destruct (Vc pc) as (W1 & W2 & W3).
        constructor; [|intros K; split; [exact W1|split; [rewrite W2; apply ph; auto|auto]]|exact Vf].
        exists (new2 ++ new1'). rewrite !count_app, Ce1, Ce2, V2. split; [rewrite V1, Pe', app_assoc; reflexivity|]. split; [reflexivity|]. split; [lia|].
        intros f2 r2 E2. destruct (V4 f2 r2 E2) as (X1 & X2 & X3). split; [lia|]. split; [auto|].
        destruct X3 as [X3|(X3 & X4 & X5 & X6 & X7 & X8)]; [left; exact X3|]. right. split; [exact X3|]. split; [lia|]. split; [exact X5|].
        split; [intros Z; apply in_or_app; left; auto|]. split; [intros Z; destruct (X7 Z); [auto|right; apply in_or_app; auto]|].
        destruct X8 as [X8|[(Y1 & Y2 & Y3 & Y4)|X8]]; [left; exact X8| |right; right; exact X8]. right. left. splits; auto.
        intros K. destruct (p_impr s) eqn:Pm; [|reflexivity]. specialize (Y4 pc). specialize (pi K eq_refl). congruence.
    + injection E as <- <-. constructor; [|intros K; auto|intros _; auto].
      exists new1'. rewrite Ce1, Ce2. splits; auto; try lia; discriminate.
    + injection E as <- <-. constructor; [|intros K; auto|discriminate].
      exists new1'. rewrite Ce1, Ce2. splits; auto; try lia; discriminate.
  - injection E as <- <-. apply orb_false_iff in C. destruct C as [C1 C2]. apply Nat.ltb_ge in C1.
    constructor; [|auto|discriminate]. exists []. cbn. splits; auto; try lia.
    intros f' res' E'. injection E' as <- <-. split; [lia|]. split; [lia|]. left. split; [exact C2|reflexivity].
Qed.
End Proofs.
