(** C54: products with matrices; C55: fused operations of matrices. *)
From Coq Require Import List Bool Arith Reals Lia Lra.
From Flocq Require Import Raux.
From Verif Require Import Num VecModel VecSpec VecProofs VecLift VecReal VecRed VecFresh ExpModel ExpSpec ExpProofs MatModel MatSpec MatVec MatLeaf MatProofs MatFused.
Import ListNotations.
Local Open Scope R_scope.

(** ** C54: y <- beta y + alpha M x and y <- beta y + alpha M^T x, for every
    combination of matrix classes, block structures and vector representations.
    y need not have values if beta = 0. *)
Theorem C54_product lg junk jscal m sr sc alpha x beta y : (forall n, length (junk n) = n) -> conf m sr sc ->
  vok sc x -> target (R_ops lg) sr y -> (beta <> 0 -> vok sr y) ->
  exists y', mult (R_ops lg) junk jscal m false alpha x beta y = Some y' /\ vok sr y' /\
    forall i, (i < sdim sr)%nat -> elem y' i = beta * elem y i + alpha * sum_to (sdim sc) (fun j => den m i j * elem x j).
Proof.
  intros Hj C Vx T Vy. destruct (mult_ok lg junk jscal Hj m sr sc false alpha beta x y (elem x) (elem y) C (vrep_self _ _ Vx) T (fun N => vrep_self _ _ (Vy N))) as (y' & E & V).
  exists y'. split; [exact E|]. split; [apply V|]. intros i Hi. apply (vrep_elem _ _ _ _ V Hi).
Qed.
Theorem C54_transposed_product lg junk jscal m sr sc alpha x beta y : (forall n, length (junk n) = n) -> conf m sr sc ->
  vok sr x -> target (R_ops lg) sc y -> (beta <> 0 -> vok sc y) ->
  exists y', mult (R_ops lg) junk jscal m true alpha x beta y = Some y' /\ vok sc y' /\
    forall i, (i < sdim sc)%nat -> elem y' i = beta * elem y i + alpha * sum_to (sdim sr) (fun j => den m j i * elem x j).
Proof.
  intros Hj C Vx T Vy. destruct (mult_ok lg junk jscal Hj m sr sc true alpha beta x y (elem x) (elem y) C (vrep_self _ _ Vx) T (fun N => vrep_self _ _ (Vy N))) as (y' & E & V).
  exists y'. split; [exact E|]. split; [apply V|]. intros i Hi. apply (vrep_elem _ _ _ _ V Hi).
Qed.
(** NRows() and NCols() are the dimensions of the vectors *)
Theorem C54_dimensions (m : mat R) : forall sr sc, conf m sr sc -> nrows m = sdim sr /\ ncols m = sdim sc.
Proof.
  induction m using mat_ind'; intros sr sc C; cbn [conf nrows ncols] in *; try (intuition; subst; auto; fail).
  - destruct C as [<- V]. split; apply (vok_dim _ _ V).
  - apply IHm. apply C.
  - apply IHm. apply C.
  - destruct C as (srs & scs & S1 & S2 & <- & <- & _). rewrite (splits_dim _ _ _ S1), (splits_dim _ _ _ S2). auto.
  - destruct C as (ss & -> & -> & <- & _). auto.
  - destruct (IHm _ _ C). auto.
Qed.
(** the classes derived from SymMatrix are symmetric, so that TransMultVector may call MultVector *)
Theorem C54_symmetric m s i j : symclass m = true -> conf m s s -> (i < sdim s)%nat -> (j < sdim s)%nat -> den m i j = den m j i.
Proof. intros. eapply den_sym; eauto. Qed.
(** M^T is the adjoint of M: the dot products computed from the results agree *)
Theorem C54_adjoint lg junk jscal m sr sc x y u w : (forall n, length (junk n) = n) -> conf m sr sc ->
  vok sc x -> vok sr y -> target (R_ops lg) sr u -> target (R_ops lg) sc w ->
  exists mx mty, mult (R_ops lg) junk jscal m false 1 x 0 u = Some mx /\ mult (R_ops lg) junk jscal m true 1 y 0 w = Some mty /\
    v_dot (R_ops lg) y mx = v_dot (R_ops lg) x mty.
Proof.
  intros Hj C Vx Vy Tu Tw.
  destruct (C54_product lg junk jscal m sr sc 1 x 0 u Hj C Vx Tu ltac:(lra)) as (mx & E1 & V1 & N1).
  destruct (C54_transposed_product lg junk jscal m sr sc 1 y 0 w Hj C Vy Tw ltac:(lra)) as (mty & E2 & V2 & N2).
  exists mx, mty. split; [exact E1|]. split; [exact E2|].
  rewrite (dot_r lg sr (elem y) _ y mx (vrep_self _ _ Vy) (vrep_fun _ _ _ V1 N1)), (dot_r lg sc (elem x) _ x mty (vrep_self _ _ Vx) (vrep_fun _ _ _ V2 N2)).
  rewrite (@sum_to_ext (sdim sr) _ (fun i => sum_to (sdim sc) (fun j => den m i j * elem x j * elem y i))).
  2:{ intros i _. rewrite Rmult_0_l, Rplus_0_l, Rmult_1_l, <- sum_to_scal. apply sum_to_ext. intros; ring. }
  rewrite sum_to_swap. apply sum_to_ext. intros j _. rewrite Rmult_0_l, Rplus_0_l, Rmult_1_l, <- sum_to_scal. apply sum_to_ext. intros; ring.
Qed.

(** Finding: a compound matrix whose spaces are set exactly on the diagonal is taken
    as block diagonal. MatricesValid() lets an empty diagonal block be missing, but
    the product dereferences it. *)
Theorem C54_missing_empty_block_refuted lg junk jscal alpha beta : let sp i j := Nat.eqb i j in
  let c i j := if (Nat.eqb i 0 && Nat.eqb j 0)%bool then Some (Ident 1 1) else None in
  let x := Comp [Dense 1 (DV true true 1 None); Dense 0 (DV true true 1 None)] in
  vok (SC [SD 1; SD 0]) x /\ mult (R_ops lg) junk jscal (Compound [1%nat; 0%nat] [1%nat; 0%nat] sp c) false alpha x beta x = None.
Proof.
  intros sp c x. split.
  - constructor. repeat constructor; try discriminate.
  - subst x. cbn. unfold yscale. destruct (negb (teq (R_ops lg) beta (t0 (R_ops lg)))); reflexivity.
Qed.

(** ** C55: X <- X + alpha M S^-1 Z and X <- S^-1 (R + alpha Z M^T D) without temporaries *)
Theorem C55_add_fused lg junk jscal m sr sc alpha s z x : (forall n, length (junk n) = n) -> unit_ident m -> conf m sr sc ->
  vok sc s -> vok sc z -> vok sr x ->
  exists x', addmsinvz (R_ops lg) junk jscal m alpha s z x = Some x' /\ vok sr x' /\
    forall i, (i < sdim sr)%nat -> elem x' i = elem x i + alpha * sum_to (sdim sc) (fun j => den m i j * (elem z j / elem s j)).
Proof.
  intros Hj U C Vs Vz Vx.
  destruct (addmsinvz_ok lg junk jscal Hj m sr sc alpha s z x _ _ _ U C (vrep_self _ _ Vs) (vrep_self _ _ Vz) (vrep_self _ _ Vx)) as (x' & E & V).
  exists x'. split; [exact E|]. split; [apply V|]. intros i Hi. apply (vrep_elem _ _ _ _ V Hi).
Qed.
Theorem C55_scaled_fused lg junk jscal m sr sc alpha s r z d x : (forall n, length (junk n) = n) -> diag_fits m -> conf m sr sc ->
  vok sc s -> vok sc r -> vok sc z -> vok sr d -> target (R_ops lg) sc x ->
  exists x', sinv (R_ops lg) junk jscal m alpha s r z d x = Some x' /\ vok sc x' /\
    forall i, (i < sdim sc)%nat -> elem x' i = (elem r i + alpha * elem z i * sum_to (sdim sr) (fun j => den m j i * elem d j)) / elem s i.
Proof.
  intros Hj U C Vs Vr Vz Vd Tx.
  destruct (sinv_ok lg junk jscal Hj m sr sc alpha s r z d x _ _ _ _ U C (vrep_self _ _ Vs) (vrep_self _ _ Vr) (vrep_self _ _ Vz) (vrep_self _ _ Vd) Tx) as (x' & E & V).
  exists x'. split; [exact E|]. split; [apply V|]. intros i Hi. apply (vrep_elem _ _ _ _ V Hi).
Qed.
(** Finding: IdentityMatrix::AddMSinvZImpl ignores its factor. For the matrix 2 I with
    s = z = 1, x = 0, alpha = 1 the result is 1 instead of 2. *)
Theorem C55_identity_factor_refuted lg junk jscal : (forall n, length (junk n) = n) ->
  let m := Ident 1 2 in let v a := Dense 1 (DV true true a None) in
  conf m (SD 1) (SD 1) /\ exists x', addmsinvz (R_ops lg) junk jscal m 1 (v 1) (v 1) (v 0) = Some x' /\ elem x' 0 = 1 /\
    elem (v 0) 0 + 1 * sum_to 1 (fun j => den m 0 j * (elem (v 1) j / elem (v 1) j)) = 2.
Proof.
  intros Hj m v. split; [split; reflexivity|].
  assert (V : forall a, vrep (SD 1) (fun _ => a) (v a)) by (intros a; split; [repeat constructor; discriminate|reflexivity]).
  exists (v_addquot (R_ops lg) junk 1 (v 1) (v 1) 1 (v 0)). split; [reflexivity|].
  pose proof (addquot_r lg junk Hj 1 1 (SD 1) (fun _ => 1) (fun _ => 1) (fun _ => 0) (v 1) (v 1) (v 0) (V 1) (V 1) (vrep_tgt lg _ _ _ (V 0)) (fun _ => V 0)) as W.
  split.
  - rewrite (vrep_elem _ _ _ 0%nat W) by (simpl; lia). field.
  - rewrite !(vrep_elem _ _ _ 0%nat (V _)) by (simpl; lia). cbn [sum_to den Nat.eqb m]. rewrite !(vrep_elem _ _ _ 0%nat (V _)) by (simpl; lia). field.
Qed.
(** Finding: for a "block diagonal" compound matrix with more block columns than
    block rows SinvBlrmZMTdBr reads a block row that does not exist. *)
Theorem C55_wide_diagonal_refuted lg junk jscal alpha a :
  let sp i j := Nat.eqb i j in let c i j := if (Nat.eqb i 0 && Nat.eqb j 0)%bool then Some (Ident 1 1) else None in
  let m := Compound [1%nat] [1%nat; 1%nat] sp c in let v := Dense 1 (DV true true a None) in
  conf m (SC [SD 1]) (SC [SD 1; SD 1]) /\
  sinv (R_ops lg) junk jscal m alpha (Comp [v; v]) (Comp [v; v]) (Comp [v; v]) (Comp [v]) (Comp [v; v]) = None.
Proof.
  intros sp c m v. split.
  - exists [SD 1], [SD 1; SD 1]. split; [left; auto|]. split; [left; auto|]. split; [reflexivity|]. split; [reflexivity|].
    intros i j Hi Hj. cbn [length] in *. destruct i as [|]; [|lia]. destruct j as [|[|]]; [| |lia]; cbn.
    + repeat split.
    + intros; discriminate.
  - reflexivity.
Qed.

(** ** A concrete case *)
Section Example.
Variable lg : R -> R.
Variables (junk : nat -> list R) (jscal : R).
Hypothesis Hj : forall n, length (junk n) = n.
Definition exblock (i j : nat) : option (mat R) :=
  match i, j with
  | 0%nat, 0%nat => Some (GenT 2 2 [1%nat; 2%nat] [2%nat; 2%nat] [3; 4])
  | 1%nat, 0%nat => Some (Transp (Scaled (Some (Dense 2 (DV true false 0 (Some [10; 20])))) (Ident 2 5) None))
  | 1%nat, 1%nat => Some (Expan 2 [1%nat])
  | _, _ => None
  end.
Definition exmat : mat R := Compound [2%nat; 2%nat] [2%nat; 1%nat] (fun i j => match exblock i j with Some _ => true | None => false end) exblock.
Definition exvec : vec R := Comp [Dense 2 (DV true false 0 (Some [1; 2])); Dense 1 (DV true true 7 None)].
Example C54_case : conf exmat (SC [SD 2; SD 2]) (SC [SD 2; SD 1]) /\ unit_ident exmat /\ diag_fits exmat.
Proof.
  split; [|split].
  - exists [SD 2; SD 2], [SD 2; SD 1]. split; [left; auto|]. split; [left; auto|]. split; [reflexivity|]. split; [reflexivity|].
    intros i j Hi Hjx. cbn [length] in *. destruct i as [|[|]]; [| |lia]; (destruct j as [|[|]]; [| |lia]); cbn [exblock nth conf opt_in].
    + split; [reflexivity|]. split; [reflexivity|]. split; [reflexivity|]. split; [reflexivity|]. split; [reflexivity|].
      split; [intros k [<-|[<-|[]]]; lia|]. split; [intros k [<-|[<-|[]]]; lia|]. auto.
    + discriminate.
    + split; [reflexivity|]. split; [split; reflexivity|]. split; [|exact Logic.I].
      constructor. split; [reflexivity|]. split; [intros _; eexists; split; reflexivity|]. intros l E. injection E as <-. reflexivity.
    + split; [reflexivity|]. split; [reflexivity|]. split; [reflexivity|]. split; [repeat constructor; simpl; tauto|].
      intros k [<-|[]]; lia.
  - intros [|[|]] [|[|]]; cbn; exact Logic.I.
  - split; [discriminate|]. intros [|[|]] [|[|]]; cbn; exact Logic.I.
Qed.
Example C54_case_result : exists y, mult (R_ops lg) junk jscal exmat false 1 exvec 0 (v_new (R_ops lg) jscal (SC [SD 2; SD 2])) = Some y /\
  map (elem y) [0; 1; 2; 3]%nat = [6; 8; 50; 207].
Proof.
  destruct C54_case as [C _].
  destruct (C54_product lg junk jscal exmat _ _ 1 exvec 0 (v_new (R_ops lg) jscal (SC [SD 2; SD 2])) Hj C) as (y & E & _ & N).
  - constructor. constructor; [|constructor; [|constructor]].
    + constructor. split; [reflexivity|]. split; [intros _; eexists; split; reflexivity|]. intros l E. injection E as <-. reflexivity.
    + repeat constructor; discriminate.
  - apply tgt_new.
  - lra.
  - exists y. split; [exact E|]. cbn [map]. rewrite !N by (cbn; lia).
    cbn [sum_to sdim list_sum map fold_right Nat.add]. unfold exmat. cbn [den locate Nat.ltb Nat.leb Nat.sub exblock optelem]. unfold entry, elem.
    cbn [sum_to length nth andb Nat.eqb contents exvec map concat app dden hom scal vlist vals repeat]. repeat f_equal; ring.
Qed.
End Example.

Print Assumptions C54_product.
Print Assumptions C54_transposed_product.
Print Assumptions C54_dimensions.
Print Assumptions C54_symmetric.
Print Assumptions C54_adjoint.
Print Assumptions C54_missing_empty_block_refuted.
Print Assumptions C55_add_fused.
Print Assumptions C55_scaled_fused.
Print Assumptions C55_identity_factor_refuted.
Print Assumptions C55_wide_diagonal_refuted.
Print Assumptions C54_case_result.
