(** * FilterProps: C01 and C02, the filter of the line search.

    Specification used in the statements (FilterProofs.v, top):
    [added ops] lists the points added since the last [Clear] in the history [ops];
    [some_coord_le q p] : q_i <= p_i for some coordinate i (IEEE comparison);
    [all_coord_le q p]  : q_i <= p_i for every coordinate i.
    [op_wf dim] : the added point has [dim] coordinates, none of them NaN (infinities allowed).
    [frun ops] executes the history on a new filter; [None] would be undefined behaviour. *)
From Coq Require Import List ZArith Bool Lia Reals.
From Verif Require Import Num FilterModel FilterProofs.
Import ListNotations.

(** C01: acceptance is non-domination by the whole history, and no call is undefined. *)
Theorem C01_filter_acceptance_is_nondomination :
  forall (dim : nat) (ops : list fop) (q : list num),
  Forall (op_wf dim) ops -> length q = dim ->
  exists f b, frun ops = Some f /\ filter_acceptable f q = Some b /\
    (b = true <-> forall p, In p (added ops) -> some_coord_le q p).
Proof. exact filter_acceptable_history. Qed.
Print Assumptions C01_filter_acceptance_is_nondomination.

(** C01, refuted without the NaN-free hypothesis: after (0,0), (NaN,NaN), (1,1) the filter accepts
    (0.5,0.5), although (0,0) is better in both coordinates. *)
Theorem C01_nan_refuted :
  exists (ops : list fop) (q p : list num) f,
    frun ops = Some f /\ filter_acceptable f q = Some true /\
    In p (added ops) /\ length p = length q /\ ~ some_coord_le q p.
Proof.
  set (ops := [Add [nzero; nzero] 0; Add [NaN; NaN] 1; Add [none; none] 2]).
  set (q := [nrat 1 2; nrat 1 2]).
  assert (T : match frun ops with Some f => filter_acceptable f q | None => None end = Some true)
    by (vm_compute; reflexivity).
  destruct (frun ops) as [f|] eqn:E; [|discriminate].
  exists ops, q, [nzero; nzero], f. repeat split; auto.
  - left; reflexivity.
  - intros (i & x & y & H1 & H2 & H3).
    assert (C : nle (nrat 1 2) nzero = false) by (vm_compute; reflexivity).
    destruct i as [|[|[|i]]]; simpl in H1, H2; try discriminate;
      injection H1 as H1; injection H2 as H2; rewrite <- H1, <- H2, C in H3; discriminate.
Qed.
Print Assumptions C01_nan_refuted.

(** C02: a rejected point, and every point no better in each coordinate, stays rejected until Clear. *)
Theorem C02_filter_rejection_permanent :
  forall (dim : nat) (ops1 ops2 : list fop) (q q' : list num) (f1 f2 : filter),
  Forall (op_wf dim) ops1 -> Forall (op_wf dim) ops2 ->
  (forall o, In o ops2 -> o <> Clear) ->
  length q = dim -> length q' = dim -> all_coord_le q q' ->
  frun ops1 = Some f1 -> frun (ops1 ++ ops2) = Some f2 ->
  filter_acceptable f1 q = Some false -> filter_acceptable f2 q' = Some false.
Proof. exact rejection_permanent. Qed.
Print Assumptions C02_filter_rejection_permanent.

(** C02: after Clear every point is acceptable, whatever the history before. *)
Theorem C02_clear_accepts_everything :
  forall (dim : nat) (ops : list fop) (q : list num),
  Forall (op_wf dim) ops ->
  exists f, frun (ops ++ [Clear]) = Some f /\ filter_acceptable f q = Some true.
Proof.
  intros dim ops q W. exists []. split; [|reflexivity].
  unfold frun. rewrite fold_left_app. fold (frun ops).
  destruct (frun_inv dim ops W) as (f & -> & _). reflexivity.
Qed.
Print Assumptions C02_clear_accepts_everything.

(** If only acceptable points are added, no stored entry is dominated by a later one, and each
    later one is acceptable to the earlier: the filter carries no redundant entry. *)
Theorem C02_filter_antichain :
  forall (dim : nat) (ops : list fop) (f : filter),
  Forall (op_wf dim) ops -> adds_acceptable [] ops -> frun ops = Some f ->
  ForallOrdPairs (fun a b => some_coord_le (evals b) (evals a) /\ ~ all_coord_le (evals b) (evals a)) f.
Proof. exact filter_antichain. Qed.
Print Assumptions C02_filter_antichain.

(** Non-vacuity: a history with a pruned entry, a Clear and an infinite coordinate. *)
Example filter_history_ok :
  let ops := [Add [nofZ 3; nofZ 3] 0; Clear; Add [nofZ 5; nofZ 5] 1; Add [nofZ 2; nofZ 4] 2; Add [nninf; ninf] 3] in
  Forall (op_wf 2) ops /\ adds_acceptable [] ops /\
  option_map (@length entry) (frun ops) = Some 2 /\ length (added ops) = 3 /\
  (exists f, frun ops = Some f /\ filter_acceptable f [nofZ 3; nofZ 5] = Some false
                               /\ filter_acceptable f [nofZ 3; nofZ 1] = Some true
                               /\ filter_acceptable f [nninf; nofZ 1] = Some true).
Proof.
  cbv zeta. split; [|split; [|split; [|split]]].
  - repeat constructor; intros x Hx; simpl in Hx;
      repeat (destruct Hx as [<-|Hx]; [vm_compute; reflexivity|]); destruct Hx.
  - vm_compute. repeat split; reflexivity.
  - vm_compute; reflexivity.
  - vm_compute; reflexivity.
  - assert (T : match frun [Add [nofZ 3; nofZ 3] 0; Clear; Add [nofZ 5; nofZ 5] 1; Add [nofZ 2; nofZ 4] 2; Add [nninf; ninf] 3]
       with Some f => [filter_acceptable f [nofZ 3; nofZ 5]; filter_acceptable f [nofZ 3; nofZ 1]; filter_acceptable f [nninf; nofZ 1]]
       | None => [] end = [Some false; Some true; Some true]) by (vm_compute; reflexivity).
    destruct (frun _) as [f|]; [|discriminate]. exists f. split; [reflexivity|].
    injection T; auto.
Qed.
