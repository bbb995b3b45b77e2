(** * C07: reference counting. *)
From Coq Require Import List ZArith Bool Arith Lia.
From Verif Require Import SmartPtrModel SmartPtrSpec SmartPtrProofs SmartPtrTop.
Import ListNotations.

(** In no history (in which assignments go to SmartPtr variables or to members of reachable objects)
    is a deleted object or SmartPtr accessed: in particular nothing is deleted twice. *)
Theorem C07_no_access_after_delete : forall ops, disciplined ops -> run init ops <> UB.
Proof. exact no_ub. Qed.

(** After every such history: the objects that SmartPtrs refer to are exactly the live ones among those
    ever given to a SmartPtr. So no object is deleted while a SmartPtr refers to it, and each is gone
    as soon as the last SmartPtr is reset, reassigned or destroyed. The count is the number of SmartPtrs. *)
Theorem C07_deleted_with_last_pointer : forall ops s, disciplined ops -> run init ops = Ok s ->
  (forall o, (exists l, live_ptr s l /\ ptr s l = Some o) <-> was_owned s o) /\
  (forall o ob, objs s o = Some ob -> cnt ob = Z.of_nat (holders s o)).
Proof.
  exact (fun ops s Hd Hr => conj (fun o => top_exact s o (run_top ops s Hd Hr)) (fun o ob => top_count s o ob (run_top ops s Hd Hr))).
Qed.

(** Without reference cycles nothing leaks: every live object can be reached. *)
Theorem C07_no_leak_without_cycles : forall ops s o, disciplined ops -> run init ops = Ok s -> acyclic s -> live s o -> reachable s o.
Proof. exact (fun ops s o Hd Hr => top_reach s o (run_top ops s Hd Hr)). Qed.

(** An assignment (self-assignment included) sets exactly the assigned SmartPtr. *)
Theorem C07_assignment_effect : forall ops s l rhs s', disciplined ops -> run init ops = Ok s ->
  assigns_reachable s (AssignRaw l rhs) -> step s (AssignRaw l rhs) = Ok s' ->
  live_ptr s' l /\ ptr s' l = rhs /\
  (forall x, live_ptr s' x -> live_ptr s x /\ (x <> l -> ptr s' x = ptr s x)) /\
  (forall r, live_ptr s (Root r) -> live_ptr s' (Root r)) /\ (forall o, live s' o -> live s o).
Proof. exact assign_effect. Qed.

(** The hypothesis on assignments is needed: breaking the last cycle through a member of an otherwise
    unreferenced object accesses a deleted SmartPtr. *)
Definition orphan_cycle : list op := [PNew 0; ONew 0 1; AssignRaw (Root 0) (Some 0); AssignPtr (Mem 0 0) (Root 0); PDestroy 0].
Theorem C07_unreachable_assignment_refuted :
  disciplined orphan_cycle /\ (exists s, run init orphan_cycle = Ok s) /\ run init (orphan_cycle ++ [AssignRaw (Mem 0 0) None]) = UB.
Proof.
  split; [|split; [eexists; reflexivity|reflexivity]].
  intros pre o post s E R. unfold orphan_cycle in E.
  destruct pre as [|o1 pre]; [injection E as <- <-; exact I|]. injection E as <- E.
  destruct pre as [|o1 pre]; [injection E as <- <-; exact I|]. injection E as <- E.
  destruct pre as [|o1 pre]; [injection E as <- <-; exact I|]. injection E as <- E.
  destruct pre as [|o1 pre].
  { injection E as <- <-. cbn in R. injection R as <-. eapply (via_root _ 0); [right; left|]; reflexivity. }
  injection E as <- E.
  destruct pre as [|o1 pre]; [injection E as <- <-; exact I|]. injection E as <- E. destruct pre; discriminate.
Qed.

(** ** Non-vacuity: a history with nested ownership; the inner object dies with the outer one. *)
Definition nested : list op :=
  [PNew 0; ONew 0 1; ONew 1 0; AssignRaw (Root 0) (Some 0); AssignRaw (Mem 0 0) (Some 1); PCopy 1 (Root 0); AssignPtr (Root 0) (Root 0); AssignRaw (Root 0) None].
Example C07_ex_disciplined : disciplined nested.
Proof.
  intros pre o post s E R. unfold nested in E.
  destruct pre as [|o1 pre]; [injection E as <- <-; exact I|]. injection E as <- E.
  destruct pre as [|o1 pre]; [injection E as <- <-; exact I|]. injection E as <- E.
  destruct pre as [|o1 pre]; [injection E as <- <-; exact I|]. injection E as <- E.
  destruct pre as [|o1 pre]; [injection E as <- <-; exact I|]. injection E as <- E.
  destruct pre as [|o1 pre].
  { injection E as <- <-. cbn in R. injection R as <-. eapply (via_root _ 0); [right; left|]; reflexivity. }
  injection E as <- E.
  destruct pre as [|o1 pre]; [injection E as <- <-; exact I|]. injection E as <- E.
  destruct pre as [|o1 pre]; [injection E as <- <-; exact I|]. injection E as <- E.
  destruct pre as [|o1 pre]; [injection E as <- <-; exact I|]. injection E as <- E. destruct pre; discriminate.
Qed.
Example C07_ex_alive : exists s, run init nested = Ok s /\ olist s = [1; 0] /\ holders s 0 = 1 /\ holders s 1 = 1.
Proof. eexists. repeat split. Qed.
Example C07_ex_gone : exists s, run init (nested ++ [PDestroy 1]) = Ok s /\ olist s = [].
Proof. eexists. repeat split. Qed.

Print Assumptions C07_no_access_after_delete.
Print Assumptions C07_deleted_with_last_pointer.
Print Assumptions C07_no_leak_without_cycles.
Print Assumptions C07_assignment_effect.
Print Assumptions C07_unreachable_assignment_refuted.
