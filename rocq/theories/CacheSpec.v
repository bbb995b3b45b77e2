(** * CacheSpec: vocabulary for the statements about cached results (C03-C06). *)
From Coq Require Import List ZArith Bool Arith.
From Verif Require Import Num CacheModel.
Import ListNotations.

Section S.
Variable T : Type.

(** The operation makes a result stored in cache [c] for the dependencies [deps] out of date: it
    changes or destroys one of the dependencies, or empties or destroys the cache. *)
Definition outdates (o : op T) (c : nat) (deps : list (option nat)) : Prop :=
  match o with
  | OChange _ _ x | ODestroy _ x => In (Some x) deps
  | CClear _ c' _ | CDestroy _ c' => c' = c
  | _ => False
  end.

(** The operation gives object [x] a new state (or ends its life). *)
Definition modifies (o : op T) (x : nat) : Prop :=
  match o with ONew _ _ y | OChange _ _ y | ODestroy _ y => y = x | _ => False end.

(** Number of constructions and modifications of objects in a history (each consumes one tag). *)
Definition consumes_tag (o : op T) : bool := match o with ONew _ _ _ | OChange _ _ _ => true | _ => false end.
Definition changes (h : list (op T)) : Z := Z.of_nat (length (filter consumes_tag h)).

(** All constructions and modifications are done by thread [th]. *)
Definition in_thread (th : nat) (o : op T) : Prop :=
  match o with ONew _ t _ | OChange _ t _ => t = th | _ => True end.
Definition one_thread (th : nat) (h : list (op T)) : Prop := forall o, In o h -> in_thread th o.

(** Equality of the scalar dependencies as the code compares them (IEEE [==]). *)
Definition scal_eq (a b : list num) : Prop := Forall2 (fun x y => neqb x y = true) a b.

(** Number of results added to cache [c] in a history. *)
Definition adds_to (c : nat) (o : op T) : bool := match o with CAdd _ c' _ _ _ => Nat.eqb c' c | _ => false end.
Definition adds (c : nat) (h : list (op T)) : Z := Z.of_nat (length (filter (adds_to c) h)).

(** Number of results held by a cache. *)
Definition held (s : st T) (c : nat) : Z :=
  match caches T s c with
  | Some ca => match entries ca with Some l => Z.of_nat (length l) | None => 0%Z end
  | None => 0%Z
  end.
End S.
