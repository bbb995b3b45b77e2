(** C41, C42, C44: what does not hold, and examples. *)
From Coq Require Import List Bool Arith ZArith Reals Lia Lra Sorted.
From Verif Require Import Num VecModel VecProofs ExpModel ExpProofs AdModel AdMaps AdEvalModel AdEvalSpec AdEvalProofs AdEvalProps.
Import ListNotations.
Local Open Scope nat_scope.

Ltac csimp := cbn [init fst snd set_tj note set_g set_tg tg tx full_x log full_g jac_g full_lam tj tyc tyd].

Section Refuted.
Context {T : Type} (O : nops T) (U : user T) (a : adapter) (rhs : list T).
Variables (fd_jac : bool) (pert : T) (fxl fxu : list T) (jtrip : list (nat * nat)).
Variables (X YC YD : Z -> xvec (T:=T)) (asum_c asum_d : Z -> T) (x0 lam0 g0 j0 : list T).
Notation stp fdg := (step O U a rhs fdg fd_jac pert fxl fxu jtrip X YC YD asum_c asum_d).
Notation runs fdg := (run O U a rhs fdg fd_jac pert fxl fxu jtrip X YC YD asum_c asum_d).
Notation expand := (expand O a X x0).
Notation s0 := (init x0 lam0 g0 j0).

(** After a failed evaluation of the constraints, asking again at the same point
    reports success, whatever the user's object does there: the tag that is reset
    is that of the Jacobian. *)
Theorem C41_failure_reported_refuted fdg junk t : t <> 0%Z -> fst (u_g U (expand t)) = false ->
  fst (snd (stp fdg junk (EvalC t) s0)) = false /\
  fst (snd (stp fdg junk (EvalD t) (runs fdg [(junk, EvalC t)] s0))) = true /\
  fst (snd (stp fdg junk (EvalC t) (runs fdg [(junk, EvalC t)] s0))) = true.
Proof.
  intros NZ D. cbn [run step]. unfold eval_c, eval_d, update_x. csimp. rewrite (proj2 (Z.eqb_neq t 0) NZ).
  unfold internal_g. csimp. rewrite (proj2 (Z.eqb_neq 0 t)) by auto. unfold AdEvalProofs.expand in D. rewrite D.
  repeat (csimp; rewrite ?Z.eqb_refl, ?D). auto.
Qed.

(** The algorithm asks for the constraints at x1, the objective at x2, again the
    constraints at x1 (known, the user is not called) and the objective at x1:
    the user gets new_x = false although the previous call had x2. *)
Theorem C42_new_x_previous_refuted junk t1 t2 : t1 <> 0%Z -> t2 <> 0%Z -> fst (u_g U (expand t1)) = true -> expand t1 <> expand t2 ->
  let h := [(junk, EvalC t1); (junk, EvalF t2); (junk, EvalC t1); (junk, EvalF t1)] in
  exists rest, log (runs false h s0) = CallF (expand t1) false :: CallF (expand t2) true :: rest /\ ~ new_x_previous (log (runs false h s0)).
Proof.
  intros N1 N2 D NE h. assert (N12 : t1 <> t2) by (intros ->; auto).
  assert (E : log (runs false h s0) = [CallF (expand t1) false; CallF (expand t2) true; CallG (expand t1) true]).
  { pose proof (proj2 (Z.eqb_neq t1 0) N1) as E1. assert (E2 : (0 =? t1)%Z = false) by (apply Z.eqb_neq; auto).
    pose proof (proj2 (Z.eqb_neq t1 t2) N12) as E3. assert (E4 : (t2 =? t1)%Z = false) by (apply Z.eqb_neq; auto).
    subst h. unfold AdEvalProofs.expand in *. cbn [run step]. unfold eval_c, eval_f, internal_g, update_x.
    csimp. rewrite E1. csimp. rewrite E2. csimp. rewrite D. csimp. rewrite E4. csimp. rewrite E3. csimp. rewrite Z.eqb_refl. csimp. rewrite Z.eqb_refl. csimp.
    rewrite !resort_x_twice. reflexivity. }
  exists [CallG (expand t1) true]. rewrite E. split; [reflexivity|]. cbn. intros [H _]. apply NE. symmetry. apply H. reflexivity.
Qed.

(** The final call passes new_x = false at a point the user may never have seen. *)
Theorem C42_new_x_documented_refuted junk t1 t2 c d : t1 <> 0%Z -> t2 <> 0%Z -> expand t1 <> expand t2 ->
  a_t a = MAKE_PARAMETER -> a_fix a <> [] -> fst (u_grad U (expand t2)) = false ->
  ~ new_x_documented (log (runs false [(junk, EvalF t1); (junk, Finalize true t2 c d)] s0)).
Proof.
  intros N1 N2 NE TP FX GF. assert (N12 : t2 <> t1) by (intros ->; auto).
  assert (L0 : Nat.eqb (length (a_fix a)) 0 = false) by (destruct (a_fix a); [congruence|reflexivity]).
  pose proof (proj2 (Z.eqb_neq t1 0) N1) as E1. pose proof (proj2 (Z.eqb_neq t2 t1) N12) as E4.
  unfold AdEvalProofs.expand in *. cbn [run step]. unfold eval_f, finalize, update_lam, update_x.
  csimp; rewrite E1. csimp. rewrite E4. csimp. destruct ((c =? 0)%Z && (d =? 0)%Z); csimp; rewrite L0, TP; cbn [andb negb is_parameter];
  repeat (csimp; rewrite ?Z.eqb_refl, ?resort_x_twice, ?GF); cbn; intros [H _]; destruct (H eq_refl) as [H'|[]]; auto.
Qed.

(** With a finite-difference gradient the call after the gradient passes
    new_x = false although the previous call was at a perturbed point. *)
Theorem C42_new_x_finite_difference_refuted junk t : t <> 0%Z -> a_nvar a = 1 -> fd_free O fxl fxu (full_index a 0) = true ->
  fst (u_f U (expand t)) = true -> fd_point O pert fxu (expand t) (full_index a 0) <> expand t ->
  ~ new_x_previous (log (runs true [(junk, EvalGrad t); (junk, EvalF t)] s0)).
Proof.
  intros NZ N1 FR DF NE. cbn [run step]. unfold eval_grad, eval_f, update_x at 2. csimp. rewrite (proj2 (Z.eqb_neq t 0) NZ).
  csimp. unfold fd_point, AdEvalProofs.expand in *. rewrite DF, N1.
  cbn [fd_grad_loop]. rewrite FR. csimp.
  destruct (fd_step O pert fxu (resort_x O a true x0 (X t)) (full_index a 0)) as [dd p]. cbn [snd] in NE.
  destruct (fst (u_f U (upd (full_index a 0) p (resort_x O a true x0 (X t))))); cbn [fst snd]; unfold update_x; csimp; rewrite Z.eqb_refl;
  csimp; cbn; intros [H _]; apply NE; apply H; reflexivity.
Qed.
End Refuted.

(** ** C44: the perturbed component in double precision *)
Lemma nadd_nan_r x y : nnan (nadd x y) = false -> nnan x = false /\ nnan y = false.
Proof. intros H. split; [destruct x as [| | |]; try reflexivity; destruct y; discriminate H|destruct y as [| | |]; try reflexivity; destruct x; discriminate H]. Qed.
(** it never exceeds the upper bound *)
Theorem C44_upper_bound lg pert fxu x i : let v := nth i x nzero in let u := nth i fxu nzero in
  nfin v = true -> nle v u = true -> nfin (fst (fd_step (num_ops lg) pert fxu x i)) = true -> nle nzero pert = true ->
  nle (snd (fd_step (num_ops lg) pert fxu x i)) u = true.
Proof.
  intros v u Fv Vu FD P. unfold fd_step, at_ in *. change (t0 (num_ops lg)) with nzero in *. fold v u in FD |- *.
  change (tlt (num_ops lg)) with nlt in *. change (tadd (num_ops lg)) with nadd in *. change (topp (num_ops lg)) with nopp in *.
  set (d := tmul (num_ops lg) pert _) in *.
  assert (Fd : nfin d = true) by (destruct (nlt u (nadd v d)); cbn [fst] in FD; [now rewrite nfin_opp in FD|auto]).
  assert (D0 : (0 <= key d)%R).
  { destruct (Rle_dec 0 (key d)) as [H|H]; auto. exfalso. apply nle_iff in P. destruct P as (_ & P1 & P2). rewrite key_nzero in P2. unfold d in *.
    change (tmul (num_ops lg)) with nmul in *. change (tabs (num_ops lg)) with nabs in *. change (t1 (num_ops lg)) with none in *.
    assert (FM : nfin (AdModel.tmax (num_ops lg) none (nabs v)) = true).
    { unfold AdModel.tmax. change (tlt (num_ops lg)) with nlt. destruct (nlt none (nabs v)); [rewrite nfin_abs; auto|apply none_fin]. }
    assert (KM : (0 <= key (AdModel.tmax (num_ops lg) none (nabs v)))%R).
    { unfold AdModel.tmax. destruct (tlt (num_ops lg) none (nabs v)); [rewrite key_abs; apply Rabs_pos|rewrite key_none; lra]. }
    assert (FP : nfin pert = true).
    { revert Fd. generalize (AdModel.tmax (num_ops lg) none (nabs v)) as w. intros w. destruct pert; try reflexivity; destruct w; discriminate. }
    destruct (nmul_fin _ _ FP FM) as (_ & K). rewrite K in H. apply H. apply fl_pos. apply Rmult_le_pos; auto. }
  apply nle_iff in Vu. destruct Vu as (Vn & Un & VU).
  destruct (nlt u (nadd v d)) eqn:C; cbn [snd].
  - assert (Fo : nfin (nopp d) = true) by (rewrite nfin_opp; auto). destruct (nadd_fin v (nopp d) Fv Fo) as (N & K). apply nle_iff. split; [auto|]. split; [auto|].
    rewrite K, key_opp. apply fl_le_key; auto. lra.
  - destruct (nadd_fin v d Fv Fd) as (N & K). apply nle_iff. split; [auto|]. split; [auto|]. apply nlt_false in C; auto.
Qed.

(** * Examples *)
Definition exa : adapter := AD 2 2 MAKE_PARAMETER (Some [0]) 1 [] [] [1] [0] [1] [] [] [JE 0 1 1] [] [JE 1 1 1] [] [].
Definition n1 := nofZ 1. Definition n2 := nofZ 2.
(** the constraints cannot be evaluated at x = 1 *)
Definition exu : user num := USER (fun x => (true, nth 0 x nzero)) (fun x => (neqb (nth 0 x nzero) n1, x)) (fun x => (negb (neqb (nth 0 x nzero) n1), x))
  (fun x => (true, x)) (fun x _ _ => (true, x)).
Definition exX (t : Z) : xvec (T:=num) := Dense [nofZ t].
Definition exstep fdg := step (num_ops (fun x => x)) exu exa [nzero] fdg false (nrat 1 10000000) [nzero; nzero] [n1; n1] [] exX exX exX nofZ nofZ.
Definition exrun fdg := run (num_ops (fun x => x)) exu exa [nzero] fdg false (nrat 1 10000000) [nzero; nzero] [n1; n1] [] exX exX exX nofZ nofZ.
Definition exinit := init [nzero; n2] [nzero; nzero] [n2; n2] [nzero; nzero].
Example C41_example : (* after a failure at x=1, asking for d(x) gives what was left in the array *)
  (fst (u_g exu [n1; n2]), fst (snd (exstep false [] (EvalC 1) exinit)), fst (snd (exstep false [] (EvalD 1) (exrun false [([], EvalC 1%Z)] exinit)))) = (false, false, true).
Proof. vm_compute. reflexivity. Qed.
Example C42_example : (* two points that differ, the constraints are defined at the first *)
  (forallb (fun p => neqb (fst p) (snd p)) (combine [n2; n2] (expand (num_ops (fun x => x)) exa exX [nzero; n2] 2)),
   neqb (nth 0 (expand (num_ops (fun x => x)) exa exX [nzero; n2] 2) nzero) (nth 0 (expand (num_ops (fun x => x)) exa exX [nzero; n2] 3) nzero),
   fst (u_g exu (expand (num_ops (fun x => x)) exa exX [nzero; n2] 2)),
   fst (u_grad exu (expand (num_ops (fun x => x)) exa exX [nzero; n2] 3)), a_nvar exa) = (true, false, true, false, 1).
Proof. vm_compute. reflexivity. Qed.
Example C42_example_log : map call_new_x (log (exrun false [([], EvalF 2%Z); ([], EvalGrad 2%Z); ([], EvalC 3%Z); ([], EvalD 3%Z); ([], EvalJacC 3%Z); ([], EvalH 3%Z n1 1%Z 1%Z)] exinit))
  = [false; false; true; false; true].
Proof. vm_compute. reflexivity. Qed.
Example C44_example : (fd_free (num_ops (fun x => x)) [nzero; nzero] [n1; n1] (full_index exa 0),
  neqb (nth 0 (fd_point (num_ops (fun x => x)) (nrat 1 10000000) [n1; n1] [nzero; n2] 0) nzero) nzero,
  map call_new_x (log (exrun true [([nzero], EvalGrad 3%Z)] exinit))) = (true, false, [true; true]).
Proof. vm_compute. reflexivity. Qed.
(** The perturbed component may violate the lower bound: x = l = 0, u = 1e-8. *)
Theorem C44_lower_bound_refuted : exists pert l u x,
  nle l x = true /\ nle x u = true /\ nlt l u = true /\ nlt (snd (fd_step (num_ops (fun x => x)) pert [u] [x] 0)) l = true.
Proof. exists (nrat 1 10000000), nzero, (nrat 1 100000000), nzero. repeat split; vm_compute; reflexivity. Qed.

Print Assumptions C41_constraints.
Print Assumptions C41_hessian.
Print Assumptions C42_new_x_documented.
Print Assumptions C44_jacobian.
Print Assumptions C44_upper_bound.
