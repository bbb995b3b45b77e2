(** C41: evaluations return the user's functions; C42: the new_x flag; C44: finite differences. *)
From Coq Require Import List Bool Arith ZArith Lia Sorted.
From Verif Require Import Num VecModel VecProofs ExpModel ExpProofs AdModel AdMaps AdEvalModel AdEvalSpec AdEvalProofs.
Import ListNotations.

Section Props.
Context {T : Type} (O : nops T) (U : user T) (a : adapter) (rhs : list T).
Variables (fd_grad fd_jac : bool) (pert : T) (fxl fxu : list T) (jtrip : list (nat * nat)).
Variables (X YC YD : Z -> xvec (T:=T)) (asum_c asum_d : Z -> T) (x0 lam0 g0 j0 : list T).
Notation stp := (step O U a rhs fd_grad fd_jac pert fxl fxu jtrip X YC YD asum_c asum_d).
Notation runs := (run O U a rhs fd_grad fd_jac pert fxl fxu jtrip X YC YD asum_c asum_d).
Notation inv := (inv O U a rhs fd_jac pert fxl fxu jtrip X YC YD x0 lam0 j0).
Notation expand := (expand O a X x0).
Notation multipliers := (multipliers O a rhs YC YD lam0).
Notation updx := (update_x O a X).
Notation updl := (update_lam O a rhs YC YD).
Notation int_g := (internal_g U).
Notation int_jac := (internal_jac O U a fd_jac pert fxl fxu jtrip).
Notation gloop := (fd_grad_loop O U a pert fxl fxu).
Notation updx_spec := (updx_spec O U a rhs fd_jac pert fxl fxu jtrip X YC YD x0 lam0 j0).
Notation updl_spec := (updl_spec O U a rhs fd_jac pert fxl fxu jtrip X YC YD x0 lam0 j0).
Notation int_g_spec := (int_g_spec O U a rhs fd_jac pert fxl fxu jtrip X YC YD x0 lam0 j0).
Notation int_jac_spec := (int_jac_spec O U a rhs fd_jac pert fxl fxu jtrip X YC YD x0 lam0 j0).

Lemma gloop_frame f : forall k i vals s, let s' := fst (gloop k i f vals s) in
  exists l, s' = fold_right (@note T) s l /\ Forall (@probe T) l.
Proof.
  induction k as [|k IH]; intros i vals s; cbn [fd_grad_loop fst]; [exists []; auto|].
  destruct (fd_free O fxl fxu (full_index a i)); [|apply IH].
  destruct (fd_step O pert fxu (full_x s) (full_index a i)) as [d p].
  set (c := CallF (upd (full_index a i) p (full_x s)) true). destruct (fst (u_f U (upd _ _ _))).
  - destruct (IH (S i) (upd i (tdiv O (tsub O (snd (u_f U (upd (full_index a i) p (full_x s)))) f) d) vals) (note c s)) as (l & H & F).
    exists (l ++ [c]). cbn zeta in H. rewrite H, fold_right_app. split; auto. apply Forall_app. split; [auto|repeat constructor].
  - exists [c]. split; [auto|repeat constructor].
Qed.
Lemma inv_notes l s : inv s -> inv (fold_right (@note T) s l).
Proof. induction l; cbn; auto. intros. apply inv_note; auto. Qed.
Lemma notes_same l s : let s' := fold_right (@note T) s l in full_x s' = full_x s /\ full_lam s' = full_lam s /\ full_g s' = full_g s /\ jac_g s' = jac_g s /\
  tx s' = tx s /\ tyc s' = tyc s /\ tyd s' = tyd s /\ tg s' = tg s /\ tj s' = tj s /\ log s' = l ++ log s.
Proof. induction l; cbn in *; [repeat split; auto|]. destruct IHl as (? & ? & ? & ? & ? & ? & ? & ? & ? & ->). repeat split; auto. Qed.

Lemma st_eta (s : st (T:=T)) : ST (full_x s) (full_lam s) (full_g s) (jac_g s) (tx s) (tyc s) (tyd s) (tg s) (tj s) (log s) = s.
Proof. destruct s; reflexivity. Qed.

(** what one operation does: the state after the update of the point, then
    (maybe) calls that leave the point alone *)
Lemma inv_step junk o s : inv s -> tags_ok o -> inv (fst (stp junk o s)).
Proof.
  intros IV [NX NY]. destruct o as [t|t|t|t|t|t|t obj c d|b t c d]; cbn [op_x step] in *;
  try (destruct (updx_spec t s IV NX) as (U1 & U2 & U3 & _)).
  - unfold eval_f. destruct (updx t s) as [s1 nw]. cbn [fst snd] in *. apply inv_note; auto.
  - unfold eval_grad. destruct (updx t s) as [s1 nw]. cbn [fst snd] in *. destruct fd_grad; [|apply inv_note; auto].
    destruct (fst (u_f U (full_x s1))); [|apply inv_note; auto].
    destruct (gloop_frame (snd (u_f U (full_x s1))) (a_nvar a) 0 junk (note (CallF (full_x s1) nw) s1)) as (l & E & _). cbn zeta in E. rewrite E.
    apply inv_notes, inv_note; auto.
  - unfold eval_c. destruct (updx t s) as [s1 nw]. cbn [fst snd] in *. rewrite <- U2 in NX. destruct (int_g_spec nw s1 U1 NX) as (H & _).
    destruct (int_g nw s1). exact H.
  - unfold eval_d. destruct (updx t s) as [s1 nw]. cbn [fst snd] in *. rewrite <- U2 in NX. destruct (int_g_spec nw s1 U1 NX) as (H & _).
    destruct (int_g nw s1). exact H.
  - unfold eval_jac_c. destruct (updx t s) as [s1 nw]. cbn [fst snd] in *. rewrite <- U2 in NX. destruct (int_jac_spec nw s1 U1 NX) as (H & _).
    destruct (int_jac nw s1). exact H.
  - unfold eval_jac_d. destruct (updx t s) as [s1 nw]. cbn [fst snd] in *. rewrite <- U2 in NX. destruct (int_jac_spec nw s1 U1 NX) as (H & _).
    destruct (int_jac nw s1). exact H.
  - unfold eval_h. destruct (_ && _ && _); [exact IV|]. destruct (updx t s) as [s1 nw]. cbn [fst snd] in *.
    destruct NY as [NC ND]. destruct (updl_spec c d s1 U1 NC ND) as (H & _). destruct (updl c d s1). cbn [fst snd] in *. apply inv_note; auto.
  - unfold finalize. destruct (updx t s) as [s1 nw]. cbn [fst snd] in *.
    destruct NY as [NC ND]. destruct (updl_spec c d s1 U1 NC ND) as (V1 & V2 & V3 & V4 & V5 & V6 & V7 & V8 & V9 & _). destruct (updl c d s1) as [s2 ny]. cbn [fst snd] in *.
    assert (E1 : resort_x O a true (full_x s2) (X t) = full_x s2) by (rewrite (i_x _ _ _ _ _ _ _ _ _ _ _ _ _ _ _ _ V1), V3, U3; reflexivity).
    assert (E2 : resort_g O a false rhs (YC c) (YD d) (opts_dimd a) (full_lam s2) = full_lam s2) by (unfold opts_dimd; rewrite (i_lam _ _ _ _ _ _ _ _ _ _ _ _ _ _ _ _ V1), V4; reflexivity).
    rewrite E1, E2, st_eta. destruct (_ && _ && _); [|exact V1].
    destruct (updx_spec t s2 V1 NX) as (W1 & W2 & _). destruct (updx t s2) as [s3 n3]. cbn [fst snd] in *.
    destruct (fst (u_grad U (full_x s3))); [|cbn [fst]; apply inv_note; auto].
    destruct (a_jfix a); [cbn [fst]; apply inv_note; auto|].
    assert (NZ : tx (note (CallGrad (full_x s3) n3) s3) <> 0%Z) by (cbn; congruence).
    destruct (int_jac_spec false (note (CallGrad (full_x s3) n3) s3) ltac:(apply inv_note; auto) NZ) as (H & _). destruct (int_jac _ _). exact H.
Qed.
Lemma inv_run os : forall s, inv s -> Forall (fun o => tags_ok (snd o)) os -> inv (runs os s).
Proof. induction os as [|[junk o] os IH]; intros s IV F; cbn [run]; auto. inversion F; subst. apply IH; auto. apply inv_step; auto. Qed.
Lemma run_app os os' : forall s, runs (os ++ os') s = runs os' (runs os s).
Proof. induction os as [|[junk o] os IH]; intros s; cbn [app run]; auto. Qed.

(** * C41. After any history of calls on the adapter *)
Section AnyHistory.
Variable os : list (list T * op T).
Hypothesis OK : Forall (fun o => tags_ok (snd o)) os.
Let s := runs os (init x0 lam0 g0 j0).
Lemma S_inv : inv s.
Proof. apply inv_run; auto. apply inv_init. Qed.

Theorem C41_objective junk t : t <> 0%Z -> snd (stp junk (EvalF t) s) = (fst (u_f U (expand t)), [snd (u_f U (expand t))]).
Proof.
  intros NZ. cbn [step]. unfold eval_f. destruct (updx_spec t s S_inv NZ) as (U1 & U2 & U3 & _). destruct (updx t s). cbn [fst snd] in *. rewrite U3. reflexivity.
Qed.
Theorem C41_gradient junk t : t <> 0%Z -> fd_grad = false ->
  snd (stp junk (EvalGrad t) s) = (fst (u_grad U (expand t)), grad_values O a (snd (u_grad U (expand t)))).
Proof.
  intros NZ FD. cbn [step]. unfold eval_grad. rewrite FD. destruct (updx_spec t s S_inv NZ) as (U1 & U2 & U3 & _). destruct (updx t s). cbn [fst snd] in *. rewrite U3. reflexivity.
Qed.
Theorem C41_constraints junk t : t <> 0%Z -> fst (u_g U (expand t)) = true ->
  snd (stp junk (EvalC t) s) = (true, c_values O a rhs (snd (u_g U (expand t))) (expand t)) /\
  snd (stp junk (EvalD t) s) = (true, d_values' O a (snd (u_g U (expand t)))).
Proof.
  intros NZ D. cbn [step]. unfold eval_c, eval_d. destruct (updx_spec t s S_inv NZ) as (U1 & U2 & U3 & _). destruct (updx t s) as [s1 nw]. cbn [fst snd] in *.
  rewrite <- U2 in NZ. destruct (int_g_spec nw s1 U1 NZ) as (_ & (F1 & _) & _ & _ & _ & OKG & _). destruct (int_g nw s1) as [s2 ok]. cbn [fst snd] in *.
  rewrite U3 in *. destruct (OKG D) as (-> & -> & _). rewrite F1. auto.
Qed.
Theorem C41_jacobian junk t : t <> 0%Z -> fd_jac = false ->
  (fst (u_jac U (expand t)) = true ->
     snd (stp junk (EvalJacC t) s) = (true, jac_c_values O a (snd (u_jac U (expand t)))) /\
     snd (stp junk (EvalJacD t) s) = (true, jac_d_values O a (snd (u_jac U (expand t))))) /\
  (fst (u_jac U (expand t)) = false ->
     fst (snd (stp junk (EvalJacC t) s)) = false /\ fst (snd (stp junk (EvalJacD t) s)) = false).
Proof.
  intros NZ FD. cbn [step]. unfold eval_jac_c, eval_jac_d. destruct (updx_spec t s S_inv NZ) as (U1 & U2 & U3 & _). destruct (updx t s) as [s1 nw]. cbn [fst snd] in *.
  rewrite <- U2 in NZ. destruct (int_jac_spec nw s1 U1 NZ) as (_ & _ & H & _). rewrite FD in H. rewrite FD. destruct (internal_jac O U a false pert fxl fxu jtrip nw s1) as [s2 ok]. cbn [fst snd] in *.
  rewrite U3 in *. destruct H as (-> & H & _). split; intros E; rewrite E in *; [rewrite H by auto|]; auto.
Qed.
Theorem C41_hessian junk t obj c d : t <> 0%Z -> c <> 0%Z -> d <> 0%Z ->
  teq O obj (t0 O) && teq O (asum_c c) (t0 O) && teq O (asum_d d) (t0 O) = false ->
  snd (stp junk (EvalH t obj c d) s) =
    (fst (u_h U (expand t) obj (multipliers c d)), h_values O a (snd (u_h U (expand t) obj (multipliers c d)))).
Proof.
  intros NZ NC ND W. cbn [step]. unfold eval_h. rewrite W. destruct (updx_spec t s S_inv NZ) as (U1 & U2 & U3 & _). destruct (updx t s) as [s1 nw]. cbn [fst snd] in *.
  destruct (updl_spec c d s1 U1 NC ND) as (V1 & V2 & V3 & V4 & _). destruct (updl c d s1) as [s2 ny]. cbn [fst snd] in *. rewrite V3, V4, U3. reflexivity.
Qed.
(** with finite differences every entry of a column that is not fixed is the
    difference quotient at this point *)
Theorem C44_jacobian junk t : t <> 0%Z -> fd_jac = true -> length j0 = length jtrip ->
  fd_defined O U a pert fxl fxu (expand t) ->
  exists j, fd_matrix O U pert fxl fxu jtrip (expand t) (a_n a) j /\
    snd (stp junk (EvalJacC t) s) = (true, jac_c_values O a j) /\ snd (stp junk (EvalJacD t) s) = (true, jac_d_values O a j).
Proof.
  intros NZ FD L D. cbn [step]. unfold eval_jac_c, eval_jac_d. destruct (updx_spec t s S_inv NZ) as (U1 & U2 & U3 & _). destruct (updx t s) as [s1 nw]. cbn [fst snd] in *.
  rewrite <- U2 in NZ. destruct (int_jac_spec nw s1 U1 NZ) as (_ & _ & H & _). rewrite FD in H. rewrite FD. destruct (internal_jac O U a true pert fxl fxu jtrip nw s1) as [s2 ok]. cbn [fst snd] in *.
  rewrite U3 in *. destruct (H L D) as (-> & M). exists (jac_g s2). auto.
Qed.
Lemma gloop_spec x f : forall k i vals s', full_x s' = x ->
  (forall q, q < i + k -> fd_free O fxl fxu (full_index a q) = true -> fst (u_f U (fd_point O pert fxu x (full_index a q))) = true) ->
  i + k <= length vals ->
  fst (snd (gloop k i f vals s')) = true /\ length (snd (snd (gloop k i f vals s'))) = length vals /\
  forall q, (i <= q < i + k -> fd_free O fxl fxu (full_index a q) = true ->
     nth q (snd (snd (gloop k i f vals s'))) (t0 O) = tdiv O (tsub O (snd (u_f U (fd_point O pert fxu x (full_index a q)))) f) (fst (fd_step O pert fxu x (full_index a q)))) /\
    (q < i -> nth q (snd (snd (gloop k i f vals s'))) (t0 O) = nth q vals (t0 O)).
Proof.
  induction k as [|k IH]; intros i vals s' EX D LV; cbn [fd_grad_loop fst snd].
  - repeat split; auto. intros; lia.
  - destruct (fd_free O fxl fxu (full_index a i)) eqn:F.
    + destruct (fd_step O pert fxu (full_x s') (full_index a i)) as [d p] eqn:E.
      assert (EP : upd (full_index a i) p (full_x s') = fd_point O pert fxu x (full_index a i)) by (unfold fd_point; rewrite <- EX, E; auto).
      rewrite EP. rewrite (D i) by (auto; lia).
      destruct (IH (S i) (upd i (tdiv O (tsub O (snd (u_f U (fd_point O pert fxu x (full_index a i)))) f) d) vals) (note (CallF (fd_point O pert fxu x (full_index a i)) true) s')) as (H1 & H2 & H3);
        [exact EX|intros q Hq; apply D; lia|rewrite upd_length; lia|]. rewrite upd_length in H2. split; [exact H1|]. split; [exact H2|]. intros q. split.
      * intros Hq Fq. destruct (Nat.eq_dec q i) as [->|NE].
        -- rewrite (proj2 (H3 i)) by lia. rewrite nth_upd_same by lia. rewrite <- EX, E. reflexivity.
        -- apply H3; auto; lia.
      * intros Hq. rewrite (proj2 (H3 q)) by lia. apply nth_upd_other. lia.
    + destruct (IH (S i) vals s') as (H1 & H2 & H3); [exact EX|intros q Hq; apply D; lia|lia|]. split; [exact H1|]. split; [exact H2|]. intros q. split.
      * intros Hq Fq. assert (q <> i) by congruence. apply H3; auto; lia.
      * intros Hq. apply H3. lia.
Qed.
Theorem C44_gradient junk t : t <> 0%Z -> fd_grad = true -> length junk = a_nvar a ->
  fst (u_f U (expand t)) = true ->
  (forall q, q < a_nvar a -> fd_free O fxl fxu (full_index a q) = true -> fst (u_f U (fd_point O pert fxu (expand t) (full_index a q))) = true) ->
  exists g, snd (stp junk (EvalGrad t) s) = (true, g) /\ length g = a_nvar a /\
    forall q, q < a_nvar a -> fd_free O fxl fxu (full_index a q) = true ->
      nth q g (t0 O) = tdiv O (tsub O (snd (u_f U (fd_point O pert fxu (expand t) (full_index a q)))) (snd (u_f U (expand t)))) (fst (fd_step O pert fxu (expand t) (full_index a q))).
Proof.
  intros NZ FD L D1 D2. cbn [step]. unfold eval_grad. rewrite FD. destruct (updx_spec t s S_inv NZ) as (U1 & U2 & U3 & _). destruct (updx t s) as [s1 nw]. cbn [fst snd] in *.
  rewrite U3, D1. destruct (gloop_spec (expand t) (snd (u_f U (expand t))) (a_nvar a) 0 junk (note (CallF (expand t) nw) s1)) as (H1 & H2 & H3); auto; [lia|].
  exists (snd (snd (gloop (a_nvar a) 0 (snd (u_f U (expand t))) junk (note (CallF (expand t) nw) s1)))).
  split; [rewrite <- H1; destruct (snd (gloop _ _ _ _ _)); reflexivity|]. split; [congruence|]. intros q Hq F. apply H3; auto; lia.
Qed.
End AnyHistory.

(** * Failures. A failing eval_g is reported the first time the constraints are asked for at a point. *)
Definition asks_g (o : op T) : bool := evaluates_g o || fd_jac && evaluates_jac o.
Definition tg_origin (os : list (list T * op T)) (s : st (T:=T)) : Prop :=
  tg s = 0%Z \/ exists o, In o os /\ asks_g (snd o) = true /\ tg s = op_x (snd o).
Lemma tg_step junk o s : inv s -> tags_ok o -> let s' := fst (stp junk o s) in tg s' = tg s \/ asks_g o = true /\ tg s' = op_x o.
Proof.
  intros IV [NX NY]. destruct o as [t|t|t|t|t|t|t obj c d|b t c d]; cbn [op_x step] in *;
  try (destruct (updx_spec t s IV NX) as (U1 & U2 & U3 & U4 & _)).
  - unfold eval_f. destruct (updx t s) as [s1 nw]. cbn [fst snd] in *. left. auto.
  - unfold eval_grad. destruct (updx t s) as [s1 nw]. cbn [fst snd] in *. left. destruct fd_grad; [|auto].
    destruct (fst (u_f U (full_x s1))); [|auto].
    destruct (gloop_frame (snd (u_f U (full_x s1))) (a_nvar a) 0 junk (note (CallF (full_x s1) nw) s1)) as (l & E & _). cbn zeta in E. rewrite E.
    destruct (notes_same l (note (CallF (full_x s1) nw) s1)) as (_ & _ & _ & _ & _ & _ & _ & H & _). rewrite H. auto.
  - right. split; [reflexivity|]. unfold eval_c. destruct (updx t s) as [s1 nw]. cbn [fst snd] in *. rewrite <- U2 in NX. destruct (int_g_spec nw s1 U1 NX) as (_ & _ & H & _).
    destruct (int_g nw s1). cbn [fst] in *. congruence.
  - right. split; [reflexivity|]. unfold eval_d. destruct (updx t s) as [s1 nw]. cbn [fst snd] in *. rewrite <- U2 in NX. destruct (int_g_spec nw s1 U1 NX) as (_ & _ & H & _).
    destruct (int_g nw s1). cbn [fst] in *. congruence.
  - unfold eval_jac_c. destruct (updx t s) as [s1 nw]. cbn [fst snd] in *. rewrite <- U2 in NX. destruct (int_jac_spec nw s1 U1 NX) as (_ & _ & HJ & _ & H & _).
    unfold asks_g. destruct fd_jac; cbn [evaluates_g evaluates_jac orb andb]; destruct (internal_jac _ _ _ _ _ _ _ _ nw s1); cbn [fst] in *; [|left; destruct HJ as (_ & _ & ->); auto].
    destruct H; [left; congruence|right; split; congruence].
  - unfold eval_jac_d. destruct (updx t s) as [s1 nw]. cbn [fst snd] in *. rewrite <- U2 in NX. destruct (int_jac_spec nw s1 U1 NX) as (_ & _ & HJ & _ & H & _).
    unfold asks_g. destruct fd_jac; cbn [evaluates_g evaluates_jac orb andb]; destruct (internal_jac _ _ _ _ _ _ _ _ nw s1); cbn [fst] in *; [|left; destruct HJ as (_ & _ & ->); auto].
    destruct H; [left; congruence|right; split; congruence].
  - left. unfold eval_h. destruct (_ && _ && _); [reflexivity|]. destruct (updx t s) as [s1 nw]. cbn [fst snd] in *.
    destruct NY as [NC ND]. destruct (updl_spec c d s1 U1 NC ND) as (_ & _ & _ & _ & _ & _ & H & _). destruct (updl c d s1). cbn [fst snd note tg] in *. congruence.
  - unfold finalize. destruct (updx t s) as [s1 nw]. cbn [fst snd] in *.
    destruct NY as [NC ND]. destruct (updl_spec c d s1 U1 NC ND) as (V1 & V2 & V3 & V4 & V5 & V6 & V7 & V8 & V9 & _). destruct (updl c d s1) as [s2 ny]. cbn [fst snd] in *.
    assert (E1 : resort_x O a true (full_x s2) (X t) = full_x s2) by (rewrite (i_x _ _ _ _ _ _ _ _ _ _ _ _ _ _ _ _ V1), V3, U3; reflexivity).
    assert (E2 : resort_g O a false rhs (YC c) (YD d) (opts_dimd a) (full_lam s2) = full_lam s2) by (unfold opts_dimd; rewrite (i_lam _ _ _ _ _ _ _ _ _ _ _ _ _ _ _ _ V1), V4; reflexivity).
    rewrite E1, E2, st_eta. destruct (_ && _ && _); [|left; cbn [fst]; congruence].
    destruct (updx_spec t s2 V1 NX) as (W1 & W2 & W3 & W4 & _). destruct (updx t s2) as [s3 n3]. cbn [fst snd] in *.
    destruct (fst (u_grad U (full_x s3))); [|left; cbn [fst note tg]; congruence].
    destruct (a_jfix a); [left; cbn [fst note tg]; congruence|].
    assert (NZ : tx (note (CallGrad (full_x s3) n3) s3) <> 0%Z) by (cbn; congruence).
    destruct (int_jac_spec false (note (CallGrad (full_x s3) n3) s3) ltac:(apply inv_note; auto) NZ) as (_ & _ & HJ & _ & H & _). cbn [note tg tx] in *.
    unfold asks_g. destruct fd_jac; cbn [evaluates_g evaluates_jac orb andb]; destruct (internal_jac _ _ _ _ _ _ _ _ _ _); cbn [fst] in *; [|left; destruct HJ as (_ & _ & ->); congruence].
    destruct H; [left; congruence|right; split; congruence].
Qed.
Lemma tg_run os : forall s done, inv s -> Forall (fun o => tags_ok (snd o)) os -> tg_origin done s -> tg_origin (done ++ os) (runs os s).
Proof.
  induction os as [|[junk o] os IH]; intros s done IV F TO; cbn [run]; [now rewrite app_nil_r|]. inversion F as [|? ? F1 F2]; subst. cbn [snd] in F1.
  replace (done ++ (junk, o) :: os) with ((done ++ [(junk, o)]) ++ os) by (rewrite <- app_assoc; reflexivity). apply IH; auto; [apply inv_step; auto|].
  destruct (tg_step junk o s IV F1) as [E|[E1 E2]].
  - destruct TO as [E0|(o' & I & A & B)]; [left; congruence|right; exists o'; rewrite in_app_iff; repeat split; auto; congruence].
  - right. exists (junk, o). rewrite in_app_iff. cbn. auto.
Qed.
(** full property: a failing evaluation of the constraints at the point is always
    reported. Proved when the constraints have not been asked for before at this
    very vector; see [C41_failure_reported_refuted] for the other case. *)
Theorem C41_failure_reported_partial os junk t : Forall (fun o => tags_ok (snd o)) os -> t <> 0%Z ->
  fst (u_g U (expand t)) = false ->
  (forall o, In o os -> asks_g (snd o) = true -> op_x (snd o) <> t) ->
  let s := runs os (init x0 lam0 g0 j0) in
  fst (snd (stp junk (EvalC t) s)) = false /\ fst (snd (stp junk (EvalD t) s)) = false.
Proof.
  intros F NZ D NT s. assert (IV : inv s) by (apply inv_run; auto; apply inv_init).
  assert (TG : tg s <> t). { destruct (tg_run os (init x0 lam0 g0 j0) [] (inv_init _ _ _ _ _ _ _ _ _ _ _ _ _ _ _ _) F (or_introl eq_refl)) as [E|(o & I & A & B)]; fold s in E || fold s in B; [congruence|]. rewrite B. apply (NT o); auto. }
  cbn [step]. unfold eval_c, eval_d. destruct (updx_spec t s IV NZ) as (U1 & U2 & U3 & U4 & _). destruct (updx t s) as [s1 nw]. cbn [fst snd] in *.
  rewrite <- U2 in NZ. destruct (int_g_spec nw s1 U1 NZ) as (_ & _ & _ & _ & _ & _ & NEW & _). destruct (int_g nw s1) as [s2 ok]. cbn [fst snd] in *.
  rewrite NEW by congruence. rewrite U3, D. auto.
Qed.

(** * C42: the new_x flag *)
Record seen (s : st (T:=T)) : Prop := SEEN {
  k_x : tx s <> 0%Z -> In (expand (tx s)) (map call_x (log s));
  k_g : tg s <> 0%Z -> In (expand (tg s)) (map call_x (log s));
  k_j : tj s <> 0%Z -> In (expand (tj s)) (map call_x (log s));
  k_doc : new_x_documented (log s) }.
Lemma documented_probes l L : Forall (@probe T) l -> new_x_documented L -> new_x_documented (l ++ L).
Proof.
  induction 1 as [|c l P F IH]; intros D; cbn [app new_x_documented]; auto. split; auto.
  destruct c as [x []| |x []| |]; try destruct P; cbn; discriminate.
Qed.
Lemma seen_call s s' t c l : seen s -> t <> 0%Z -> log s' = l ++ c :: log s -> Forall (@probe T) l -> call_x c = expand t ->
  (call_new_x c = false -> tx s = t) -> tx s' = t -> (tg s' = tg s \/ tg s' = t) -> (tj s' = tj s \/ tj s' = t \/ tj s' = 0%Z) -> seen s'.
Proof.
  intros [] NZ EL P EC NEW TX TG TJ.
  assert (HERE : In (expand t) (map call_x (log s'))) by (rewrite EL, map_app; apply in_or_app; right; left; auto).
  assert (OLD : forall y, In y (map call_x (log s)) -> In y (map call_x (log s'))) by (intros y Hy; rewrite EL, map_app; apply in_or_app; right; right; auto).
  constructor.
  - rewrite TX. auto.
  - destruct TG as [->| ->]; auto.
  - destruct TJ as [->|[->| ->]]; auto. congruence.
  - rewrite EL. apply documented_probes; auto. cbn. split; auto. intros E. rewrite EC. rewrite <- (NEW E). apply k_x0. rewrite (NEW E). auto.
Qed.
Lemma seen_nocall s s' t l : seen s -> t <> 0%Z -> log s' = l ++ log s -> Forall (@probe T) l -> (tg s = t \/ tj s = t) ->
  tx s' = t -> (tg s' = tg s \/ tg s' = t) -> (tj s' = tj s \/ tj s' = t \/ tj s' = 0%Z) -> seen s'.
Proof.
  intros [] NZ EL P HT TX TG TJ.
  assert (OLD : forall y, In y (map call_x (log s)) -> In y (map call_x (log s'))) by (intros y Hy; rewrite EL, map_app; apply in_or_app; right; auto).
  assert (HERE : In (expand t) (map call_x (log s'))) by (apply OLD; destruct HT as [<-|<-]; auto).
  constructor.
  - rewrite TX. auto.
  - destruct TG as [->| ->]; auto.
  - destruct TJ as [->|[->| ->]]; auto. congruence.
  - rewrite EL. apply documented_probes; auto.
Qed.
(** what an operation that is not the final one does to the log *)
Lemma log_step junk o s : inv s -> tags_ok o -> is_final o = false -> let s' := fst (stp junk o s) in
  s' = s \/
  tx s' = op_x o /\ (tg s' = tg s \/ tg s' = op_x o) /\ (tj s' = tj s \/ tj s' = op_x o \/ tj s' = 0%Z) /\
  exists l, Forall (@probe T) l /\ (fd_grad = false -> fd_jac = false -> l = []) /\
    ((exists c, log s' = l ++ c :: log s /\ call_x c = expand (op_x o) /\ (call_new_x c = false -> tx s = op_x o)) \/
     log s' = l ++ log s /\ (tg s = op_x o \/ tj s = op_x o)).
Proof.
  intros IV [NX NY] NF. destruct o as [t|t|t|t|t|t|t obj c d|b t c d]; try discriminate NF; cbn [op_x step] in *;
  destruct (updx_spec t s IV NX) as (U1 & U2 & U3 & U4 & U5 & _ & _ & U6 & _ & _ & _ & U7 & _).
  - right. unfold eval_f. destruct (updx t s) as [s1 nw]. cbn [fst snd note tx tg tj log] in *. split; [auto|]. split; [auto|]. split; [auto|].
    exists []. split; [constructor|]. split; [auto|]. left. exists (CallF (full_x s1) nw). cbn. rewrite U6, U3. repeat split; auto. intros E. symmetry. apply U7; auto.
  - right. unfold eval_grad. destruct (updx t s) as [s1 nw]. cbn [fst snd] in *.
    assert (NW : nw = false -> tx s = t) by (intros E; symmetry; apply U7; auto).
    destruct fd_grad.
    + destruct (fst (u_f U (full_x s1))).
      * destruct (gloop_frame (snd (u_f U (full_x s1))) (a_nvar a) 0 junk (note (CallF (full_x s1) nw) s1)) as (l & E & P). cbn zeta in E. rewrite E.
        destruct (notes_same l (note (CallF (full_x s1) nw) s1)) as (_ & _ & _ & _ & H1 & _ & _ & H2 & H3 & H4). rewrite H1, H2, H3, H4. cbn [note tx tg tj log].
        split; [auto|]. split; [auto|]. split; [auto|]. exists l. split; [auto|]. split; [discriminate|]. left. exists (CallF (full_x s1) nw). cbn. rewrite U6, U3. auto.
      * cbn [fst note tx tg tj log]. split; [auto|]. split; [auto|]. split; [auto|]. exists []. split; [constructor|]. split; [auto|]. left. exists (CallF (full_x s1) nw). cbn. rewrite U6, U3. auto.
    + cbn [fst note tx tg tj log]. split; [auto|]. split; [auto|]. split; [auto|]. exists []. split; [constructor|]. split; [auto|]. left. exists (CallGrad (full_x s1) nw). cbn. rewrite U6, U3. auto.
  - right. unfold eval_c. destruct (updx t s) as [s1 nw]. cbn [fst snd] in *.
    assert (NW : nw = false -> tx s = t) by (intros E; symmetry; apply U7; auto).
    assert (NZ : tx s1 <> 0%Z) by congruence. destruct (int_g_spec nw s1 U1 NZ) as (_ & (_ & _ & H1 & _) & H2 & _ & H3 & _ & _ & H4).
    destruct (int_g nw s1) as [s2 ok]. cbn [fst] in *. rewrite H1, U2. split; [auto|]. split; [right; congruence|]. split; [destruct H3; [left; congruence|auto]|].
    exists []. split; [constructor|]. split; [auto|]. destruct H4 as [[H4 H5]|[H4 H5]]; [right; split; [cbn; congruence|left; congruence]|left].
    exists (CallG (full_x s1) nw). cbn. rewrite H4, U6, U3. auto.
  - right. unfold eval_d. destruct (updx t s) as [s1 nw]. cbn [fst snd] in *.
    assert (NW : nw = false -> tx s = t) by (intros E; symmetry; apply U7; auto).
    assert (NZ : tx s1 <> 0%Z) by congruence. destruct (int_g_spec nw s1 U1 NZ) as (_ & (_ & _ & H1 & _) & H2 & _ & H3 & _ & _ & H4).
    destruct (int_g nw s1) as [s2 ok]. cbn [fst] in *. rewrite H1, U2. split; [auto|]. split; [right; congruence|]. split; [destruct H3; [left; congruence|auto]|].
    exists []. split; [constructor|]. split; [auto|]. destruct H4 as [[H4 H5]|[H4 H5]]; [right; split; [cbn; congruence|left; congruence]|left].
    exists (CallG (full_x s1) nw). cbn. rewrite H4, U6, U3. auto.
  - right. unfold eval_jac_c. destruct (updx t s) as [s1 nw]. cbn [fst snd] in *.
    assert (NW : nw = false -> tx s = t) by (intros E; symmetry; apply U7; auto).
    assert (NZ : tx s1 <> 0%Z) by congruence. destruct (int_jac_spec nw s1 U1 NZ) as (_ & (_ & _ & H1 & _) & _ & H2 & H3 & H4).
    destruct (int_jac nw s1) as [s2 ok]. cbn [fst] in *. rewrite H1, U2. split; [auto|]. split; [destruct H3; [left|right]; congruence|]. split; [destruct H2; [auto|right; left; congruence]|].
    destruct H4 as [[H4 H5]|(H4 & l & H5 & H6 & H7)].
    + exists []. split; [constructor|]. split; [auto|]. right. split; [cbn; congruence|right; congruence].
    + destruct fd_jac.
      * destruct (H7 eq_refl) as [[P E]|(l' & -> & P)].
        -- exists l. split; [auto|]. split; [discriminate|]. right. split; [congruence|left; congruence].
        -- exists l'. split; [auto|]. split; [discriminate|]. left. exists (CallG (full_x s1) nw). cbn. rewrite H5, U6, U3, <- app_assoc. auto.
      * rewrite H6 in H5 by auto. exists []. split; [constructor|]. split; [auto|]. left. exists (CallJac (full_x s1) nw). cbn. rewrite H5, U6, U3. auto.
  - right. unfold eval_jac_d. destruct (updx t s) as [s1 nw]. cbn [fst snd] in *.
    assert (NW : nw = false -> tx s = t) by (intros E; symmetry; apply U7; auto).
    assert (NZ : tx s1 <> 0%Z) by congruence. destruct (int_jac_spec nw s1 U1 NZ) as (_ & (_ & _ & H1 & _) & _ & H2 & H3 & H4).
    destruct (int_jac nw s1) as [s2 ok]. cbn [fst] in *. rewrite H1, U2. split; [auto|]. split; [destruct H3; [left|right]; congruence|]. split; [destruct H2; [auto|right; left; congruence]|].
    destruct H4 as [[H4 H5]|(H4 & l & H5 & H6 & H7)].
    + exists []. split; [constructor|]. split; [auto|]. right. split; [cbn; congruence|right; congruence].
    + destruct fd_jac.
      * destruct (H7 eq_refl) as [[P E]|(l' & -> & P)].
        -- exists l. split; [auto|]. split; [discriminate|]. right. split; [congruence|left; congruence].
        -- exists l'. split; [auto|]. split; [discriminate|]. left. exists (CallG (full_x s1) nw). cbn. rewrite H5, U6, U3, <- app_assoc. auto.
      * rewrite H6 in H5 by auto. exists []. split; [constructor|]. split; [auto|]. left. exists (CallJac (full_x s1) nw). cbn. rewrite H5, U6, U3. auto.
  - unfold eval_h. destruct (_ && _ && _); [left; reflexivity|right]. destruct (updx t s) as [s1 nw]. cbn [fst snd] in *.
    destruct NY as [NC ND]. destruct (updl_spec c d s1 U1 NC ND) as (_ & H1 & H2 & _ & _ & _ & H3 & H4 & H5 & _). destruct (updl c d s1) as [s2 ny]. cbn [fst snd note tg tj tx log] in *.
    split; [congruence|]. split; [left; congruence|]. split; [left; congruence|]. exists []. split; [constructor|]. split; [auto|]. left.
    exists (CallH (full_x s2) nw obj (full_lam s2) ny). cbn. rewrite H5, H2, U6, U3. repeat split; auto. intros E; symmetry; apply U7; auto.
Qed.
Lemma seen_run os : forall s, inv s -> seen s -> Forall (fun o => tags_ok (snd o) /\ is_final (snd o) = false) os -> seen (runs os s).
Proof.
  induction os as [|[junk o] os IH]; intros s IV SN F; cbn [run]; auto. inversion F as [|? ? [F1 F2] F3]; subst. cbn [snd] in F1, F2.
  apply IH; auto; [apply inv_step; auto|]. destruct (log_step junk o s IV F1 F2) as [->|(H1 & H2 & H3 & l & P & _ & [(c & H4 & H5 & H6)|[H4 H5]])]; auto.
  - apply (seen_call s _ (op_x o) c l); auto. apply F1.
  - apply (seen_nocall s _ (op_x o) l); auto. apply F1.
Qed.
(** new_x = false is passed only if an earlier call had the same x, as documented *)
Theorem C42_new_x_documented os : Forall (fun o => tags_ok (snd o) /\ is_final (snd o) = false) os ->
  new_x_documented (log (runs os (init x0 lam0 g0 j0))).
Proof. intros F. apply k_doc. apply seen_run; auto; [apply inv_init|]. constructor; cbn; auto; congruence. Qed.

(** Stronger reading: the previous call had the same x. Holds with exact
    derivatives if the algorithm never goes back to an older vector. *)
Definition at_head (s : st (T:=T)) : Prop :=
  (tx s <> 0%Z -> match log s with c :: _ => call_x c = expand (tx s) | [] => False end) /\
  (0 <= tg s <= tx s /\ 0 <= tj s <= tx s)%Z /\ new_x_previous (log s).
Theorem C42_new_x_previous_partial os : fd_grad = false -> fd_jac = false ->
  Forall (fun o => tags_ok (snd o) /\ is_final (snd o) = false) os -> StronglySorted Z.le (0%Z :: map (fun o => op_x (snd o)) os) ->
  new_x_previous (log (runs os (init x0 lam0 g0 j0))).
Proof.
  intros FG FJ F S.
  assert (G : forall os s, inv s -> at_head s -> Forall (fun o => tags_ok (snd o) /\ is_final (snd o) = false) os -> StronglySorted Z.le (tx s :: map (fun o => op_x (snd o)) os) -> at_head (runs os s)).
  { clear os F S. induction os as [|[junk o] os IH]; intros s IV AH F S; cbn [run]; auto. destruct (Forall_inv F) as [F1 F2]; pose proof (Forall_inv_tail F) as F3. cbn [snd] in F1, F2.
    cbn [map snd] in S. destruct (StronglySorted_inv S) as [S1 S2]. pose proof (Forall_inv S2) as S3. pose proof (Forall_inv_tail S2) as S4. destruct (StronglySorted_inv S1) as [S5 S6].
    destruct AH as (A1 & A2 & A3).
    destruct (log_step junk o s IV F1 F2) as [E|(H1 & H2 & H3 & l & P & L & CS)].
    - rewrite E. apply IH; auto; [split; auto|]. constructor; auto.
    - assert (NX : op_x o <> 0%Z) by apply F1. apply IH; auto; [apply inv_step; auto| |rewrite H1; constructor; auto].
      rewrite (L FG FJ) in CS. cbn [app] in CS. unfold at_head. rewrite H1. split; [|split].
      + intros _. destruct CS as [(c & -> & -> & _)|[-> C]]; [reflexivity|].
        assert (E : tx s = op_x o) by lia. rewrite <- E in *. apply A1. auto.
      + lia.
      + destruct CS as [(c & -> & C1 & C2)|[-> C]]; [|auto]. cbn [new_x_previous]. split; auto. intros E. specialize (C2 E). rewrite <- C2 in *. specialize (A1 NX). destruct (log s); [auto|]. congruence. }
  apply (G os (init x0 lam0 g0 j0)); auto; [apply inv_init|]. split; [cbn; congruence|]. cbn. auto with zarith.
Qed.

(** ** new_lambda *)
Lemma last_lambda_probes l L : Forall (@probe T) l -> last_lambda (l ++ L) = last_lambda L.
Proof. induction 1 as [|c l P F IH]; cbn [app last_lambda]; auto. destruct c as [x []| |x []| |]; try destruct P; auto. Qed.
Lemma new_lambda_probes l L : Forall (@probe T) l -> new_lambda_previous L -> new_lambda_previous (l ++ L).
Proof. induction 1 as [|c l P F IH]; cbn [app new_lambda_previous]; auto. intros H. split; auto. destruct c as [x []| |x []| |]; try destruct P; auto. Qed.
Definition is_h (c : call T) : bool := match c with CallH _ _ _ _ _ => true | _ => false end.
Definition lam_ok (s : st (T:=T)) : Prop := (tyc s <> 0%Z -> last_lambda (log s) = Some (full_lam s)) /\ new_lambda_previous (log s).
Lemma lam_ok_noh s s' l : lam_ok s -> tyc s' = tyc s -> full_lam s' = full_lam s -> log s' = l ++ log s ->
  Forall (fun c => is_h c = false) l -> lam_ok s'.
Proof.
  intros [A B] E1 E2 E3 F. unfold lam_ok. rewrite E1, E2, E3. clear E1 E2 E3. induction F as [|c l P F [IH1 IH2]]; cbn [app]; [auto|].
  split; [destruct c; try discriminate P; cbn [last_lambda]; auto|]. cbn [new_lambda_previous]. split; auto. destruct c; auto. discriminate P.
Qed.
Lemma probes_noh l : Forall (@probe T) l -> Forall (fun c => is_h c = false) l.
Proof. apply Forall_impl. intros [x []| |x []| |] P; try destruct P; reflexivity. Qed.
Lemma lam_step junk o s : inv s -> lam_ok s -> tags_ok o -> is_final o = false -> lam_ok (fst (stp junk o s)).
Proof.
  intros IV LO [NX NY] NF. destruct o as [t|t|t|t|t|t|t obj c d|b t c d]; try discriminate NF; cbn [op_x step] in *;
  destruct (updx_spec t s IV NX) as (U1 & U2 & U3 & U4 & U5 & U6 & _ & U7 & _ & _ & U8 & _).
  - unfold eval_f. destruct (updx t s) as [s1 nw]. cbn [fst snd] in *. apply (lam_ok_noh s _ [CallF (full_x s1) nw]); auto. cbn. congruence.
  - unfold eval_grad. destruct (updx t s) as [s1 nw]. cbn [fst snd] in *. destruct fd_grad.
    + destruct (fst (u_f U (full_x s1))).
      * destruct (gloop_frame (snd (u_f U (full_x s1))) (a_nvar a) 0 junk (note (CallF (full_x s1) nw) s1)) as (l & E & P). cbn zeta in E. rewrite E.
        destruct (notes_same l (note (CallF (full_x s1) nw) s1)) as (_ & H1 & _ & _ & _ & H2 & _ & _ & _ & H4). cbn [note full_lam tyc log] in *.
        apply (lam_ok_noh s _ (l ++ [CallF (full_x s1) nw])); try congruence; [rewrite H4, U7, <- app_assoc; reflexivity|]. apply Forall_app. split; [apply probes_noh; auto|repeat constructor].
      * apply (lam_ok_noh s _ [CallF (full_x s1) nw]); auto. cbn. congruence.
    + apply (lam_ok_noh s _ [CallGrad (full_x s1) nw]); auto. cbn. congruence.
  - unfold eval_c. destruct (updx t s) as [s1 nw]. cbn [fst snd] in *.
    assert (NZ : tx s1 <> 0%Z) by congruence. destruct (int_g_spec nw s1 U1 NZ) as (_ & (_ & H0 & _ & H1 & _) & H2 & _ & H3 & _ & _ & H4).
    destruct (int_g nw s1) as [s2 ok]. cbn [fst] in *. destruct H4 as [[H4 _]|[H4 _]].
    + apply (lam_ok_noh s _ []); auto; cbn; congruence.
    + apply (lam_ok_noh s _ [CallG (full_x s1) nw]); auto; cbn; congruence.
  - unfold eval_d. destruct (updx t s) as [s1 nw]. cbn [fst snd] in *.
    assert (NZ : tx s1 <> 0%Z) by congruence. destruct (int_g_spec nw s1 U1 NZ) as (_ & (_ & H0 & _ & H1 & _) & H2 & _ & H3 & _ & _ & H4).
    destruct (int_g nw s1) as [s2 ok]. cbn [fst] in *. destruct H4 as [[H4 _]|[H4 _]].
    + apply (lam_ok_noh s _ []); auto; cbn; congruence.
    + apply (lam_ok_noh s _ [CallG (full_x s1) nw]); auto; cbn; congruence.
  - unfold eval_jac_c. destruct (updx t s) as [s1 nw]. cbn [fst snd] in *.
    assert (NZ : tx s1 <> 0%Z) by congruence. destruct (int_jac_spec nw s1 U1 NZ) as (_ & (_ & H0 & _ & H1 & _) & _ & H2 & H3 & H4).
    destruct (int_jac nw s1) as [s2 ok]. cbn [fst] in *. destruct H4 as [[H4 H5]|(H4 & l & H5 & H6 & H7)].
    + apply (lam_ok_noh s _ []); auto; cbn; congruence.
    + apply (lam_ok_noh s _ l); auto; try congruence. destruct fd_jac; [|rewrite H6; auto].
      destruct (H7 eq_refl) as [[P E]|(l' & -> & P)]; [apply probes_noh; auto|]. apply Forall_app. split; [apply probes_noh; auto|repeat constructor].
  - unfold eval_jac_d. destruct (updx t s) as [s1 nw]. cbn [fst snd] in *.
    assert (NZ : tx s1 <> 0%Z) by congruence. destruct (int_jac_spec nw s1 U1 NZ) as (_ & (_ & H0 & _ & H1 & _) & _ & H2 & H3 & H4).
    destruct (int_jac nw s1) as [s2 ok]. cbn [fst] in *. destruct H4 as [[H4 H5]|(H4 & l & H5 & H6 & H7)].
    + apply (lam_ok_noh s _ []); auto; cbn; congruence.
    + apply (lam_ok_noh s _ l); auto; try congruence. destruct fd_jac; [|rewrite H6; auto].
      destruct (H7 eq_refl) as [[P E]|(l' & -> & P)]; [apply probes_noh; auto|]. apply Forall_app. split; [apply probes_noh; auto|repeat constructor].
  - unfold eval_h. destruct (_ && _ && _); [exact LO|]. destruct (updx t s) as [s1 nw]. cbn [fst snd] in *.
    destruct NY as [NC ND]. destruct (updl_spec c d s1 U1 NC ND) as (H0 & H1 & H2 & HL & H3 & H3' & _ & _ & H5 & H6). destruct (updl c d s1) as [s2 ny]. cbn [fst snd] in *.
    split; [intros _; reflexivity|]. cbn [note log new_lambda_previous]. rewrite H5, U7. split; [|apply LO].
    intros E. destruct (H6 E) as [E1 E2]. destruct LO as [LO _]. rewrite LO by congruence. f_equal. rewrite HL, <- U8, E1, E2.
    apply (i_ty _ _ _ _ _ _ _ _ _ _ _ _ _ _ _ _ U1). congruence.
Qed.
(** new_lambda = false is passed only if the previous eval_h call had the same multipliers *)
Theorem C42_new_lambda os : Forall (fun o => tags_ok (snd o) /\ is_final (snd o) = false) os ->
  new_lambda_previous (log (runs os (init x0 lam0 g0 j0))).
Proof.
  intros F. assert (G : forall os s, inv s -> lam_ok s -> Forall (fun o => tags_ok (snd o) /\ is_final (snd o) = false) os -> lam_ok (runs os s)).
  { clear os F. induction os as [|[junk o] os IH]; intros s IV LO F; cbn [run]; auto. destruct (Forall_inv F) as [F1 F2]; pose proof (Forall_inv_tail F) as F3. cbn [snd] in *.
    apply IH; auto; [apply inv_step; auto|apply lam_step; auto]. }
  apply (G os (init x0 lam0 g0 j0)); auto; [apply inv_init|]. split; cbn; auto. congruence.
Qed.
End Props.
