(** What the compressed sparse row format of a symmetric triplet matrix is,
    stated without reference to the converter.  Rows and columns are numbered
    from 1 as in the triplet format. *)
From Coq Require Import List Arith Lia Permutation.
Import ListNotations.

(** [nth_error] based access *)
Definition at_ {A} (l : list A) (k : nat) (x : A) : Prop := nth_error l k = Some x.

(** The k-th triplet is at position {i,j} of the symmetric matrix. *)
Definition trip_at (airn ajcn : list nat) (i j k : nat) : Prop :=
  (at_ airn k i /\ at_ ajcn k j) \/ (at_ airn k j /\ at_ ajcn k i).

Definition in_range (dim : nat) (airn ajcn : list nat) : Prop :=
  length airn = length ajcn /\
  Forall (fun i => 1 <= i <= dim) airn /\ Forall (fun j => 1 <= j <= dim) ajcn.

(** row [r] has an entry in the upper triangle *)
Definition upper_row_used (airn ajcn : list nat) (r : nat) : Prop :=
  exists k i j, at_ airn k i /\ at_ ajcn k j /\ r = Nat.min i j.

(** no empty row of the upper triangle between two non-empty ones *)
Definition no_inner_gap (airn ajcn : list nat) : Prop :=
  forall r1 r r2, r1 < r < r2 ->
    upper_row_used airn ajcn r1 -> upper_row_used airn ajcn r2 ->
    upper_row_used airn ajcn r.

(** [ks] are, in some order and each once, the triplets at position {i,j}. *)
Definition triplets_of (airn ajcn : list nat) (i j : nat) (ks : list nat) : Prop :=
  NoDup ks /\ forall k, In k ks <-> trip_at airn ajcn i j k.

(** the compressed format: row pointers, column numbers *)
Definition csr_shape (off dim : nat) (ia ja : list nat) : Prop :=
  length ia = dim + 1 /\
  at_ ia 0 off /\
  at_ ia dim (off + length ja) /\
  (forall r a b, at_ ia r a -> at_ ia (r + 1) b -> a <= b) /\
  (forall c, In c ja -> off <= c < off + dim) /\
  (forall r a b p q c d, at_ ia r a -> at_ ia (r + 1) b ->
     a <= off + p -> p < q -> off + q < b -> at_ ja p c -> at_ ja q d -> c < d).

(** The compressed format has an element at row i, column j: number p in [ja]
    and in the array of values. *)
Definition csr_pos (off : nat) (ia ja : list nat) (i j p : nat) : Prop :=
  1 <= i /\ 1 <= j /\
  exists a b, at_ ia (i - 1) a /\ at_ ia i b /\ a <= off + p < b /\ at_ ja p (j - 1 + off).
