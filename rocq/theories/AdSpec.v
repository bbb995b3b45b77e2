(** Specification of the translation between the user's problem and the
    algorithm's problem. *)
From Coq Require Import List Bool Arith Sorted.
From Verif Require Import VecModel.
Import ListNotations.

(** [l] lists, in increasing order and once each, the indices below [n] with property [P] *)
Definition enumerates (n : nat) (P : nat -> Prop) (l : list nat) : Prop :=
  StronglySorted lt l /\ forall i, In i l <-> i < n /\ P i.

Section Bounds.
Context {T : Type} (O : nops T) (minf pinf : T) (lo up : list T).
Definition lower (i : nat) : T := nth i lo (t0 O).
Definition upper (i : nat) : T := nth i up (t0 O).
(** both bounds coincide: a fixed variable, an equality constraint *)
Definition tight (i : nat) : Prop := teq O (lower i) (upper i) = true.
(** the lower bound exceeds the upper bound *)
Definition contradictory (i : nat) : Prop := ~ tight i /\ tlt O (upper i) (lower i) = true.
(** bounds that count as bounds: beyond nlp_lower_bound_inf / nlp_upper_bound_inf there is none *)
Definition bounded_below (i : nat) : Prop := tlt O minf (lower i) = true.
Definition bounded_above (i : nat) : Prop := tlt O (upper i) pinf = true.
End Bounds.

(** the values given for position (r, c) by a list of triplets *)
Definition entries {T} (trip : list (nat * nat)) (vals : list T) (r c : nat) : list T :=
  map snd (filter (fun e => (fst (fst e) =? r) && (snd (fst e) =? c)) (combine trip vals)).
