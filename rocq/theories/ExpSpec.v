(** Specification of expansion matrices. An expansion matrix with positions
    [pos] is the matrix P with P[pos_i][i] = 1 and zeros elsewhere. *)
From Coq Require Import List Reals Arith.
Import ListNotations.
Local Open Scope R_scope.

(** the positions of an expansion matrix with [n] rows: different, in range *)
Definition positions (n : nat) (pos : list nat) : Prop := NoDup pos /\ forall p, In p pos -> (p < n)%nat.

Definition entry (pos : list nat) (j i : nat) : R := if Nat.eqb (nth i pos 0%nat) j then 1 else 0.
(** sum of f 0 .. f (n-1) *)
Fixpoint sum_to (n : nat) (f : nat -> R) : R := match n with O => 0 | S n => sum_to n f + f n end.
(** element j of P x and element i of P^T y *)
Definition times (pos : list nat) (x : list R) (j : nat) : R := sum_to (length pos) (fun i => entry pos j i * nth i x 0).
Definition trans_times (pos : list nat) (n : nat) (y : list R) (i : nat) : R := sum_to n (fun j => entry pos j i * nth j y 0).
