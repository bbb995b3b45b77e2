From Coq Require Import List Bool ZArith Reals Lia.
From Verif Require Import Num ConvModel ConvSpec.
Import ListNotations.
Open Scope Z_scope.

Lemma leq_iff x y : nle x y = true <-> leq x y.
Proof. apply nle_iff. Qed.

Lemma last_shift {A B} (f : A -> B) l x d : last (map f l) (f x) = match map f l with [] => f x | _ :: _ => last (map f l) d end.
Proof.
  assert (G : forall (l : list B) a b, l <> [] -> last l a = last l b).
  { induction l0 as [|y l0 IH]; intros a b H; [congruence|]. destruct l0; simpl; auto. apply IH. discriminate. }
  destruct l; auto. apply G. discriminate.
Qed.

(** ** The loop *)
Section Loop.
Variables (S E P : Type).
Variable check : Z -> E -> S -> cresult * S.
Variable body : Z -> P -> body_result.
Variable pass_check : P -> E.
Variable PP : P -> Prop.     (* holds for all passes of the environment *)
Variable I : list E -> Z -> Z -> S -> cresult -> Prop.

Hypothesis step : forall seen iter total s p it n c1 s1, PP p ->
  I seen iter total s (CStat CONTINUE) -> body iter p = BNext it n ->
  check (it + 1) (pass_check p) s = (c1, s1) ->
  I (pass_check p :: seen) (it + 1) (total + n + 1) s1 c1.

Definition final (r : run_result S) (ps : list P) (own0 : nat) (t : Z) (c : cresult) : Prop :=
  match rr_end r with
  | ByCheck st => c = CStat st /\ st <> CONTINUE /\ t = rr_total r
  | ByThrow e => (c = CThrow e /\ t = rr_total r) \/
      (c = CStat CONTINUE /\ exists p n, In p ps /\ body (rr_iter r) p = BThrow e n /\ rr_total r = t + n)
  | Running => c = CStat CONTINUE /\
      ((t = rr_total r /\ rr_own r = own0 + length ps)%nat \/
       exists p n, In p ps /\ body (rr_iter r) p = BRunning n /\ rr_total r = t + n)
  end.

Lemma loop_sound ps : (forall p, In p ps -> PP p) -> forall iter c s total own seen,
  I seen iter total s c ->
  let r := loop check body pass_check ps iter c s total own in
  exists t c' seen', I seen' (rr_iter r) t (rr_state r) c' /\ (own <= rr_own r <= own + length ps)%nat /\
    seen' = rev (firstn (rr_own r - own) (map pass_check ps)) ++ seen /\
    final r ps own t c'.
Proof.
  induction ps as [|p ps IH]; intros HP iter c s total own seen HI.
  - destruct c as [[| | | | | | |]|e]; simpl; exists total; eexists; exists seen;
      (split; [exact HI|]); rewrite Nat.sub_diag; simpl; (split; [lia|]); (split; [reflexivity|]);
      unfold final; simpl; repeat split; try discriminate; auto.
  - destruct c as [st|e].
    2: { simpl. exists total, (CThrow e), seen. split; auto. rewrite Nat.sub_diag. simpl. split; [lia|]. split; auto. left; auto. }
    destruct st; cbn [loop];
      try (eexists total, _, seen; split; [exact HI|]; cbn [rr_own]; rewrite Nat.sub_diag; simpl; split; [lia|]; split; [reflexivity|];
           unfold final; simpl; repeat split; try discriminate; auto; fail).
    destruct (body iter p) as [e n|it n|n] eqn:B.
    + exists total, (CStat CONTINUE), seen. split; [exact HI|]. cbn [rr_own]. rewrite Nat.sub_diag. simpl. split; [lia|]. split; [reflexivity|].
      unfold final; simpl. right. split; auto. exists p, n. auto.
    + destruct (check (it + 1) (pass_check p) s) as [c1 s1] eqn:C.
      pose proof (step _ _ _ _ _ _ _ _ _ (HP p (or_introl eq_refl)) HI B C) as H1.
      destruct (IH (fun q h => HP q (or_intror h)) _ _ _ _ (Datatypes.S own) _ H1) as (t & c' & seen' & A1 & A2 & A3 & A4).
      exists t, c', seen'. split; [exact A1|]. split; [simpl; lia|]. split.
      * rewrite A3. set (k := rr_own _) in *.
        replace (k - own)%nat with (Datatypes.S (k - Datatypes.S own)) by lia.
        cbn [map firstn rev]. rewrite <- app_assoc. reflexivity.
      * unfold final in *. destruct (rr_end _); auto.
        -- destruct A4 as [A4|(A4 & q & m & A5 & A6)]; [left; auto|right]. split; auto. exists q, m. simpl. tauto.
        -- destruct A4 as (A4 & [[A5 A6]|(q & m & A5 & A6)]); split; auto; [left|right].
           ++ split; auto. simpl. lia.
           ++ exists q, m. simpl. tauto.
    + exists total, (CStat CONTINUE), seen. split; [exact HI|]. cbn [rr_own]. rewrite Nat.sub_diag. simpl. split; [lia|]. split; [reflexivity|].
      unfold final; simpl. split; auto. right. exists p, n. auto.
Qed.
End Loop.

(** ** The restoration phase *)
Section Resto.
Variable o : ropts.
Variable iter0 : Z.

Definition RI (seen : list rmeasures) (iter total : Z) (s : rstate) (c : cresult) : Prop :=
  iter = iter0 + total /\ 0 <= total /\
  (c = CStat CONTINUE -> iter < o_max_iter (ro o) /\ rs_succ s = total + 1 /\ total <= ro_max_resto o) /\
  (0 < total -> iter <= o_max_iter (ro o) /\ total <= ro_max_resto o + 1).

Lemma resto_check_spec iter e s c s1 : resto_check o iter e s = (c, s1) ->
  c = CStat CONTINUE -> iter < o_max_iter (ro o) /\ rs_succ s1 = rs_succ s + 1 /\ rs_succ s <= ro_max_resto o.
Proof.
  intros E ->. revert E. unfold resto_check.
  destruct (negb _); [discriminate|].
  destruct (Z.leb_spec (o_max_iter (ro o)) iter); [discriminate|].
  destruct (Z.ltb_spec (ro_max_resto o) (rs_succ s)); [discriminate|].
  cbv zeta. set (st := if rs_first s then _ else _). clearbody st.
  assert (G : forall (x : cresult) c2, x <> CStat CONTINUE -> (x, c2) <> (CStat CONTINUE, s1)) by congruence.
  destruct st; try (intros E; inversion E; fail).
  destruct (check_convergence _ _ _ _ _ _) as [[st|x] c1]; [|intros E; inversion E].
  destruct st; try (intros E; inversion E; subst; simpl; auto; fail);
  repeat match goal with |- context[if ?b then _ else _] => destruct b end; intros E; inversion E; subst; simpl; auto.
Qed.

Lemma rbody_next iter p it n : rbody iter p = BNext it n -> it = iter /\ n = 0.
Proof. unfold rbody. destruct (first_exn _ _); intros E; inversion E; auto. Qed.
Lemma rbody_throw iter p e n : rbody iter p = BThrow e n -> n = 0.
Proof. unfold rbody. destruct (first_exn _ _); intros E; inversion E; auto. Qed.
Lemma rbody_run iter p n : rbody iter p <> BRunning n.
Proof. unfold rbody. destruct (first_exn _ _); discriminate. Qed.

Lemma resto_run init e0 ps :
  let r := run (resto_check o) rbody rp_check init e0 ps iter0 (init_rstate o) in
  rr_iter r = iter0 + rr_total r /\ 0 <= rr_total r /\
  (0 < rr_total r -> rr_iter r <= o_max_iter (ro o) /\ rr_total r <= ro_max_resto o + 1) /\
  (rr_end r = Running -> (Z.of_nat (length ps) <= rr_total r) /\ rr_iter r < o_max_iter (ro o)).
Proof.
  cbv zeta. unfold run. destruct init as [e|].
  { simpl. repeat split; try lia; try discriminate. }
  destruct (resto_check o iter0 e0 (init_rstate o)) as [c s1] eqn:C.
  set (RI' := fun (seen : list rmeasures) iter total s c => RI seen iter total s c /\ Z.of_nat (length seen) = total + 1).
  assert (H0 : RI' [e0] iter0 0 s1 c).
  { split; [|reflexivity]. split; [lia|]. split; [lia|]. split; [|lia]. intros E.
    destruct (resto_check_spec _ _ _ _ _ C E) as (A & B & D). simpl in B, D. lia. }
  edestruct (loop_sound _ _ _ (resto_check o) rbody rp_check (fun _ => True) RI') with (ps := ps) (iter := iter0) (c := c) (s := s1) (total := 0) (own := 0%nat)
    as (t & c' & seen' & ((A1 & A2 & A3 & A4) & A5) & B1 & B2 & B3); eauto.
  - intros seen iter total s p it n c1 s2 _ ((A1 & A2 & A3 & A4) & A5) B C1.
    apply rbody_next in B. destruct B as [-> ->]. destruct (A3 eq_refl) as (D1 & D2 & D3).
    split; [|cbn [length]; lia].
    split; [lia|]. split; [lia|]. split; [|lia]. intros E.
    destruct (resto_check_spec _ _ _ _ _ C1 E) as (F1 & F2 & F3). lia.
  - set (r := loop _ _ _ _ _ _ _ _ _) in *.
    assert (T : t = rr_total r).
    { unfold final in B3. destruct (rr_end r).
      - tauto.
      - destruct B3 as [[_ B3]|(_ & p & n & _ & Q & R)]; auto. apply rbody_throw in Q. lia.
      - destruct B3 as (_ & [[B3 _]|(p & n & _ & Q & _)]); auto. elim (rbody_run _ _ _ Q). }
    subst t. split; [exact A1|]. split; [exact A2|]. split; [exact A4|].
    intros R. unfold final in B3. rewrite R in B3. destruct B3 as (-> & [[_ B3]|(p & n & _ & Q & _)]); [|elim (rbody_run _ _ _ Q)].
    destruct (A3 eq_refl) as (A6 & _). split; [|exact A6].
    rewrite B2 in A5. rewrite app_length, rev_length, firstn_length, map_length in A5. simpl in A5. lia.
Qed.
End Resto.

(** iteration counters and passes of one restoration *)
Lemma perform_spec o iter r : iter < o_max_iter (ro o) ->
  match perform_restoration o iter r with
  | BThrow _ n => 0 <= n /\ iter + 1 + n <= o_max_iter (ro o)
  | BNext it n => 0 <= n /\ it = iter + n /\ it + 1 <= o_max_iter (ro o)
  | BRunning n => 0 <= n /\ iter + 1 + n <= o_max_iter (ro o) /\ Z.of_nat (length (re_passes r)) <= n
  end.
Proof.
  intros L. unfold perform_restoration. destruct (re_start r); [lia|]. cbv zeta.
  pose proof (resto_run o (iter + 1) (re_init r) (re_check0 r) (re_passes r)) as (A & B & C & D).
  set (res := run _ _ _ _ _ _ _ _) in *. clearbody res.
  assert (N : iter + 1 + rr_total res <= o_max_iter (ro o)).
  { destruct (Z.eq_dec (rr_total res) 0); [lia|]. assert (0 < rr_total res) by lia. specialize (C H). lia. }
  destruct (rr_end res) eqn:R.
  1-2: destruct (optimize_return _ _) as [[| | | | | | | | | | | | | | | | | ]|];
     repeat match goal with |- context[if ?b then _ else _] => destruct b end;
     try destruct (re_post r); lia.
  destruct (D eq_refl). lia.
Qed.

Lemma perform_next o iter r it n : perform_restoration o iter r = BNext it n -> 0 <= n /\ it = iter + n.
Proof.
  unfold perform_restoration. destruct (re_start r); [discriminate|]. cbv zeta.
  pose proof (resto_run o (iter + 1) (re_init r) (re_check0 r) (re_passes r)) as (A & B & _).
  set (res := run _ _ _ _ _ _ _ _) in *. clearbody res.
  destruct (rr_end res); try discriminate;
   destruct (optimize_return _ _) as [[| | | | | | | | | | | | | | | | | ]|];
     repeat match goal with |- context[if ?b then _ else _] => destruct b end;
     try destruct (re_post r); try discriminate; intros E; inversion E; lia.
Qed.

(** ** The solve *)
Section Solve.
Variables (o : copts) (r : ropts).
Definition usual : Prop := 0 <= o_max_iter o /\ o_max_iter (ro r) = o_max_iter o.

Definition acc_b (f0 : num) (e : measures) : bool :=
  nle (m_overall e) (o_acc_tol o) && nle (m_dual e) (o_acc_dual o)
  && nle (m_constr e) (o_acc_constr o) && nle (m_compl e) (o_acc_compl o)
  && nle (ndiv (nabs (nsub (m_f e) f0)) (nmax none (nabs (m_f e)))) (o_acc_obj o).
Lemma acc_b_iff f0 e : acc_b f0 e = true <-> acceptable_point o f0 e.
Proof.
  unfold acc_b, acceptable_point. rewrite !andb_true_iff, !leq_iff. tauto.
Qed.

(** number of acceptable checks at the end; list is latest first *)
Fixpoint trail (seen : list measures) : Z :=
  match seen with
  | [] => 0
  | e :: rest => if acc_b (match rest with [] => m1e50 | p :: _ => m_f p end) e then trail rest + 1 else 0
  end.

Definition conv_b (e : measures) : bool :=
  (nle (m_overall e) (o_tol o) && nle (m_dual e) (o_dual_tol o) && nle (m_constr e) (o_constr_tol o) && nle (m_compl e) (o_compl_tol o))
  || (m_novars e && nle (m_constr e) (o_constr_tol o)).
Lemma conv_b_iff e : conv_b e = true <-> converged_point o e.
Proof.
  unfold conv_b, converged_point, within_tolerances. rewrite orb_true_iff, !andb_true_iff, !leq_iff. tauto.
Qed.

(** what a check establishes *)
Definition prev_f (rest : list measures) : num := match rest with [] => m1e50 | p :: _ => m_f p end.

Definition CI (seen : list measures) (iter total : Z) (s : cstate) (c : cresult) : Prop :=
  (total = iter /\ 0 <= iter /\ (usual -> iter <= o_max_iter o)) /\
  exists e rest, seen = e :: rest /\ Z.of_nat (length rest) <= iter /\ 
  (c <> CStat CONTINUE -> Forall (fun e => conv_b e = false /\ m_user_ok e = true) rest) /\
  (c = CStat CONTINUE -> Forall (fun e => conv_b e = false /\ m_user_ok e = true) seen /\ iter < o_max_iter o /\
     (0 < o_acc_iter o -> last_iter s = iter /\ curr_obj s = m_f e /\ acc_counter s = trail seen)) /\
  (c = CStat CONVERGED -> conv_b e = true /\ m_user_ok e = true) /\
  (c = CStat CONVERGED_ACCEPTABLE -> 0 < o_acc_iter o /\ o_acc_iter o <= trail seen /\ m_user_ok e = true) /\
  (c = CStat USER_STOP -> m_user_ok e = false) /\
  (c = CStat C_MAXITER -> o_max_iter o <= iter) /\
  (m_user_ok e = true -> conv_b e = true -> c = CStat CONVERGED) /\
  (m_user_ok e = true -> conv_b e = false -> m_novars e = false -> 0 < o_acc_iter o -> o_acc_iter o <= trail seen ->
     c = CStat CONVERGED_ACCEPTABLE) /\
  (forall x, c = CThrow x -> x = EX_LOCALLY_INFEASIBLE /\ m_novars e = true) /\
  (0 < o_acc_iter o -> (c = CStat CONTINUE -> trail seen < o_acc_iter o) /\ trail rest < o_acc_iter o).

Ltac fin := repeat split; intros; try discriminate; auto; try congruence; try lia; try (exfalso; match goal with H : _ -> trail _ < _ |- _ => specialize (H ltac:(assumption)); lia end).

Lemma check_CI rest iter e s c s1 :
  check_convergence o (o_tol o) true iter e s = (c, s1) ->
  0 <= iter -> (usual -> iter <= o_max_iter o) -> Z.of_nat (length rest) <= iter ->
  Forall (fun e => conv_b e = false /\ m_user_ok e = true) rest ->
  (0 < o_acc_iter o -> last_iter s < iter /\ curr_obj s = prev_f rest /\ acc_counter s = trail rest /\ trail rest < o_acc_iter o) ->
  CI (e :: rest) iter iter s1 c.
Proof.
  intros C Hi Hi2 Hl HF HA. split; [split; auto|]. exists e, rest. split; [reflexivity|]. split; [exact Hl|].
  assert (TR : 0 < o_acc_iter o -> trail rest < o_acc_iter o) by (intros; apply HA; auto).
  revert C. unfold check_convergence. cbn [andb].
  destruct (m_user_ok e) eqn:U; cbn [negb].
  2: { intros E; inversion E; subst. fin. }
  assert (CB : forall b, (nle (m_overall e) (o_tol o) && nle (m_dual e) (o_dual_tol o) && nle (m_constr e) (o_constr_tol o) && nle (m_compl e) (o_compl_tol o)) = b ->
     conv_b e = b || (m_novars e && nle (m_constr e) (o_constr_tol o))) by (intros b <-; reflexivity).
  destruct (nle (m_overall e) (o_tol o) && _ && _ && _) eqn:T.
  { specialize (CB _ eq_refl). simpl in CB. intros E; inversion E; subst. fin. }
  specialize (CB _ eq_refl). simpl in CB.
  destruct (m_novars e) eqn:NV.
  { destruct (nle (m_constr e) (o_constr_tol o)) eqn:K; simpl in CB;
    intros E; inversion E; subst; fin. }
  simpl in CB.
  set (q := if (0 <? o_acc_iter o) then _ else _).
  assert (Q : exists acc sx, q = (acc, sx) /\
     (0 < o_acc_iter o -> acc = acc_b (prev_f rest) e /\ last_iter sx = iter /\ curr_obj sx = m_f e /\ acc_counter sx = trail rest) /\
     (~ 0 < o_acc_iter o -> acc = false)).
  { unfold q. destruct (Z.ltb_spec 0 (o_acc_iter o)) as [P|P].
    - do 2 eexists. split; [reflexivity|]. split; [|lia]. intros _.
      destruct (HA P) as (H1 & H2 & H3 & H4). unfold update_obj.
      replace (iter =? last_iter s) with false by (symmetry; apply Z.eqb_neq; lia).
      cbn [last_iter curr_obj acc_counter last_obj]. split; auto.
      unfold is_acceptable. cbn [curr_obj last_obj]. rewrite H2. reflexivity.
    - do 2 eexists. split; [reflexivity|]. split; [lia|auto]. }
  clearbody q. destruct Q as (acc & sx & -> & QA & QB).
  set (s2 := set_counter sx _).
  assert (Q2 : 0 < o_acc_iter o -> last_iter s2 = iter /\ curr_obj s2 = m_f e /\ acc_counter s2 = trail (e :: rest)).
  { intros P. destruct (QA P) as (A1 & A2 & A3 & A4). unfold s2. cbn [set_counter last_iter curr_obj acc_counter].
    repeat split; auto. cbn [trail]. fold (prev_f rest). rewrite <- A1. destruct acc; auto. rewrite A4. reflexivity. }
  assert (Q3 : acc = true -> 0 < o_acc_iter o).
  { intros ->. destruct (Z_lt_dec 0 (o_acc_iter o)); auto. specialize (QB n). discriminate. }
  assert (Q4 : 0 < o_acc_iter o -> acc = false -> trail (e :: rest) = 0).
  { intros P ->. destruct (QA P) as (A1 & _). cbn [trail]. fold (prev_f rest). rewrite <- A1. reflexivity. }
  clearbody s2.
  destruct (acc && (o_acc_iter o <=? acc_counter s2)) eqn:AC.
  { apply andb_true_iff in AC. destruct AC as [A1 A2]. apply Z.leb_le in A2. specialize (Q3 A1). destruct (Q2 Q3) as (_ & _ & Q5).
    intros E; inversion E; subst. fin. }
  assert (TL : 0 < o_acc_iter o -> trail (e :: rest) < o_acc_iter o).
  { intros P. destruct (Q2 P) as (_ & _ & Q5). destruct acc.
    - simpl in AC. apply Z.leb_gt in AC. lia.
    - rewrite Q4; auto. }
  destruct (ngt _ _).
  { intros E; inversion E; subst. fin. }
  destruct (Z.leb_spec (o_max_iter o) iter).
  { intros E; inversion E; subst. fin. }
  destruct (nlt _ _ && _).
  { intros E; inversion E; subst. fin. }
  destruct (nlt _ _ && _).
  { intros E; inversion E; subst. fin. }
  intros E; inversion E; subst. split; [congruence|]. split.
  { intros _. split; [constructor; auto|]. split; [lia|]. exact Q2. }
  fin.
Qed.

Lemma main_body_next iter p it n : main_body r iter p = BNext it n -> 0 <= n /\ it = iter + n.
Proof.
  unfold main_body. destruct (run_core _); [discriminate|]. destruct (p_ls p) as [[e|]|re]; [discriminate| |].
  - destruct (p_accept p); intros E; inversion E; lia.
  - destruct (perform_restoration r iter re) eqn:P.
    + destruct (p_accept p); discriminate.
    + destruct (p_accept p); [discriminate|]. intros E; inversion E; subst. eapply perform_next; eauto.
    + destruct (p_accept p); discriminate.
Qed.

Lemma main_body_spec iter p : usual -> iter < o_max_iter o ->
  match main_body r iter p with
  | BThrow _ n => 0 <= n /\ iter + n <= o_max_iter o
  | BNext it n => 0 <= n /\ it = iter + n /\ it + 1 <= o_max_iter o
  | BRunning n => 0 <= n /\ iter + n <= o_max_iter o /\ exists re, p_ls p = LsResto re /\ Z.of_nat (length (re_passes re)) <= n
  end.
Proof.
  intros [_ Hsame] L. unfold main_body. destruct (run_core _); [lia|].
  destruct (p_ls p) as [[e|]|re].
  - lia.
  - destruct (p_accept p); lia.
  - assert (L' : iter < o_max_iter (ro r)) by lia.
    pose proof (perform_spec r iter re L') as H. rewrite Hsame in H.
    destruct (perform_restoration r iter re); try lia.
    + destruct (p_accept p); lia.
    + destruct (p_accept p); (split; [lia|]); (split; [lia|]); exists re; split; auto; lia.
Qed.

Lemma solve_sound e0 ps :
  let res := solve o r None e0 ps in
  exists t c seen, CI seen (rr_iter res) t (rr_state res) c /\ (rr_own res <= length ps)%nat /\
    seen = rev (checks res e0 ps) /\ final _ _ (main_body r) res ps 0 t c /\ length seen = Datatypes.S (rr_own res).
Proof.
  cbv zeta. unfold solve, run.
  destruct (main_check o 0 e0 init_cstate) as [c s1] eqn:C.
  assert (H0 : CI [e0] 0 0 s1 c).
  { eapply check_CI; [exact C|lia|unfold usual; lia|simpl; lia|constructor|]. intros P. simpl. repeat split; lia. }
  edestruct (loop_sound _ _ _ (main_check o) (main_body r) p_check (fun _ => True) CI) with (ps := ps) (iter := 0) (c := c) (s := s1) (total := 0) (own := 0%nat)
    as (t & c' & seen' & A1 & A2 & A3 & A4); eauto.
  - intros seen iter total s p it n c1 s2 _ ((-> & A2 & A2') & e & rest & A3 & A4 & A5 & A6 & A7 & _ & _ & _ & _ & _ & _ & A8) B C1.
    destruct (A6 eq_refl) as (F & L & G).
    destruct (main_body_next _ _ _ _ B) as (M1 & ->).
    assert (M2 : usual -> iter + n + 1 <= o_max_iter o).
    { intros u. pose proof (main_body_spec iter p u L) as M. rewrite B in M. lia. }
    replace (iter + n + 1) with (iter + n + 1) by lia.
    eapply check_CI; [exact C1|lia|exact M2| |exact F|].
    + rewrite A3. cbn [length]. lia.
    + intros P. destruct (G P) as (G1 & G2 & G3). destruct (A8 P) as (A9 & _).
      repeat split; auto; try lia. rewrite A3. exact G2.
  - set (res := loop _ _ _ _ _ _ _ _ _) in *.
    exists t, c', seen'. rewrite Nat.sub_0_r in A3. split; [exact A1|]. split; [lia|].
    assert (E : seen' = rev (checks res e0 ps)).
    { rewrite A3. unfold checks. cbn [firstn rev]. reflexivity. }
    split; [exact E|]. split; [exact A4|].
    rewrite A3, app_length, rev_length, firstn_length, map_length. simpl. lia.
Qed.

(** consequences *)
Lemma trail_prefix k seen : 0 <= k <= trail seen ->
  exists l1 l2, with_previous m1e50 (rev seen) = l1 ++ l2 /\ Z.of_nat (length l2) = k /\
    Forall (fun p => acceptable_point o (fst p) (snd p)) l2.
Proof.
  assert (WP : forall l f0 e, with_previous f0 (l ++ [e]) = with_previous f0 l ++ [(last (map m_f l) f0, e)]).
  { induction l as [|x l IH]; intros f0 e; simpl; auto. rewrite IH. f_equal. f_equal. f_equal. f_equal.
    apply last_shift. }
  revert k. induction seen as [|e rest IH]; intros k K.
  - simpl in K. assert (k = 0) by lia. subst. exists [], []. auto.
  - cbn [trail] in K. cbn [rev]. rewrite WP.
    assert (PF : last (map m_f (rev rest)) m1e50 = prev_f rest).
    { destruct rest as [|p rest]; [reflexivity|]. cbn [rev]. rewrite map_app. cbn [map]. rewrite last_last. reflexivity. }
    rewrite PF. destruct (Z.eq_dec k 0) as [->|Nk].
    { eexists (_ ++ _), []. rewrite app_nil_r. auto. }
    destruct (acc_b _ e) eqn:A; [|lia].
    destruct (IH (k - 1)) as (l1 & l2 & E & L & F); [lia|].
    exists l1, (l2 ++ [(prev_f rest, e)]). rewrite E, app_assoc. split; auto.
    rewrite app_length. simpl. split; [lia|]. apply Forall_app. split; auto. constructor; auto.
    simpl. apply acc_b_iff. exact A.
Qed.

Lemma trail_prefix_inv k seen : 0 <= k -> 
  (exists l1 l2, with_previous m1e50 (rev seen) = l1 ++ l2 /\ Z.of_nat (length l2) = k /\
    Forall (fun p => acceptable_point o (fst p) (snd p)) l2) -> k <= trail seen.
Proof.
  assert (WP : forall l f0 e, with_previous f0 (l ++ [e]) = with_previous f0 l ++ [(last (map m_f l) f0, e)]).
  { induction l as [|x l IH]; intros f0 e; simpl; auto. rewrite IH. f_equal. f_equal. f_equal. f_equal.
    apply last_shift. }
  revert k. induction seen as [|e rest IH]; intros k K (l1 & l2 & E & L & F).
  - simpl in *. symmetry in E. apply app_eq_nil in E. destruct E as [_ ->]. simpl in L. lia.
  - cbn [rev] in E. rewrite WP in E.
    assert (PF : last (map m_f (rev rest)) m1e50 = prev_f rest).
    { destruct rest as [|p rest]; [reflexivity|]. cbn [rev]. rewrite map_app. cbn [map]. rewrite last_last. reflexivity. }
    rewrite PF in E. cbn [trail]. fold (prev_f rest).
    destruct l2 as [|x l2 _] using rev_ind.
    { simpl in L. subst. assert (0 <= trail rest) by (clear; induction rest; simpl; try lia; destruct (acc_b _ _); lia).
      destruct (acc_b _ e); lia. }
    rewrite app_assoc in E. apply app_inj_tail in E. destruct E as [E <-].
    apply Forall_app in F. destruct F as [F1 F2]. inversion F2; subst. simpl in H1.
    apply acc_b_iff in H1. rewrite H1. rewrite app_length in *. simpl in *.
    assert (Z.of_nat (length l2) <= trail rest); [|lia]. apply IH; [lia|]. exists l1, l2. auto.
Qed.
End Solve.
