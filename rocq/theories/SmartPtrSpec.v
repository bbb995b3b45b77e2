(** * SmartPtrSpec: what a user of SmartPtr relies on. *)
From Coq Require Import List ZArith Bool Arith.
From Verif Require Import SmartPtrModel.
Import ListNotations.

Definition live (s : st) (o : nat) : Prop := objs s o <> None.
Definition live_ptr (s : st) (l : loc) : Prop := In l (locs s).
(** Number of live SmartPtrs referring to [o]. *)
Definition holders (s : st) (o : nat) : nat :=
  length (filter (fun l => match ptr s l with Some x => Nat.eqb x o | None => false end) (locs s)).
(** Some SmartPtr has referred to [o] (the object was not just created by [new]). *)
Definition was_owned (s : st) (o : nat) : Prop := exists ob, objs s o = Some ob /\ owned ob = true.

(** Reachable from a SmartPtr variable or from an object that is not owned by anyone yet. *)
Inductive reachable (s : st) : nat -> Prop :=
| via_root r o : live_ptr s (Root r) -> ptr s (Root r) = Some o -> reachable s o
| via_new o : live s o -> ~ was_owned s o -> reachable s o
| via_member a k o : reachable s a -> live_ptr s (Mem a k) -> ptr s (Mem a k) = Some o -> reachable s o.

(** The assigned SmartPtr is a variable or a member of a reachable object. *)
Definition assigns_reachable (s : st) (o : op) : Prop :=
  match o with
  | AssignRaw (Mem a _) _ | AssignPtr (Mem a _) _ => reachable s a
  | _ => True
  end.
Definition disciplined (ops : list op) : Prop :=
  forall pre o post s, ops = pre ++ o :: post -> run init pre = Ok s -> assigns_reachable s o.

(** The reference graph has no cycle. *)
Definition acyclic (s : st) : Prop :=
  exists rank : nat -> nat, forall a k b, live_ptr s (Mem a k) -> ptr s (Mem a k) = Some b -> rank a < rank b.
