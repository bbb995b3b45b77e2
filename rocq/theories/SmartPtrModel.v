(** * SmartPtrModel: intrusive reference counting.

    Models /repo/src/Common/IpReferenced.hpp and /repo/src/Common/IpSmartPtr.hpp (release build).

    An object is an address with a reference count and a number of member SmartPtrs; a SmartPtr
    lives at a location: [Root r] (a variable outside of counted objects) or [Mem o k] (member [k]
    of object [o]). Deleting an object runs its destructor, which destroys its member SmartPtrs,
    last member first. Accessing a dead object or a dead location inside the library is [UB].
    A client call naming a dead object or location is [BadCall].
    Simplifications: the count is an unbounded integer (Index in the code); objects have no other
    data; [owned] is a ghost field: a SmartPtr has referred to the object at some time. *)
From Coq Require Import List ZArith Bool Arith.
Import ListNotations.

Inductive res (A : Type) := Ok (a : A) | UB | BadCall.
Arguments Ok {A} a.
Arguments UB {A}.
Arguments BadCall {A}.
Definition bind {A B} (x : res A) (f : A -> res B) : res B :=
  match x with Ok a => f a | UB => UB | BadCall => BadCall end.
Notation "'do' x <- e ; f" := (bind e (fun x => f)) (at level 200, x pattern, e at level 100, f at level 200).

Inductive loc := Root (r : nat) | Mem (o k : nat).
Definition loc_eq_dec (a b : loc) : {a = b} + {a <> b}.
Proof. decide equality; apply Nat.eq_dec. Defined.

(** IpReferenced.hpp 194 [reference_count_]. *)
Record obj := mkObj { cnt : Z; slots : nat; owned : bool }.
(** [olist] enumerates the live objects, [locs] the live SmartPtrs; [ptr] is IpSmartPtr.hpp 355 [ptr_]
    ([None] is the null pointer). *)
Record st := mkSt { objs : nat -> option obj; olist : list nat; locs : list loc; ptr : loc -> option nat }.
Definition init : st := mkSt (fun _ => None) [] [] (fun _ => None).

Definition set_obj (s : st) o v := mkSt (fun x => if Nat.eqb x o then v else objs s x) (olist s) (locs s) (ptr s).
Definition set_ptr (s : st) l p := mkSt (objs s) (olist s) (locs s) (fun x => if loc_eq_dec x l then p else ptr s x).
Definition drop_loc (s : st) l := mkSt (objs s) (olist s) (remove loc_eq_dec l (locs s)) (ptr s).
Definition kill_obj (s : st) o := mkSt (fun x => if Nat.eqb x o then None else objs s x) (remove Nat.eq_dec o (olist s)) (locs s) (ptr s).
Definition has_loc (s : st) (l : loc) : bool := if in_dec loc_eq_dec l (locs s) then true else false.

(** IpReferenced.hpp 210-223 [AddRef]. *)
Definition add_ref (s : st) (o : nat) : res st :=
  match objs s o with
  | None => UB
  | Some ob => Ok (set_obj s o (Some (mkObj (cnt ob + 1) (slots ob) true)))
  end.

(** Destruction of the member SmartPtrs [k-1 .. 0] of object [o] (compiler generated part of the
    destructor run by [delete ptr_]); [rel] is [ReleasePointer_]. *)
Fixpoint del_members (rel : st -> loc -> res st) (k : nat) (o : nat) (s : st) : res st :=
  match k with
  | O => Ok s
  | S k' => do s1 <- rel s (Mem o k'); del_members rel k' o (drop_loc s1 (Mem o k'))
  end.

(** IpSmartPtr.hpp 629-646 [ReleasePointer_] with IpReferenced.hpp 225-258 [ReleaseRef]. [fuel]
    bounds the depth of nested deletions (shown to be sufficient). *)
Fixpoint release (fuel : nat) (s : st) (l : loc) : res st :=
  match fuel with
  | O => UB
  | S f =>
    if has_loc s l then
      match ptr s l with
      | None => Ok s
      | Some o =>
        match objs s o with
        | None => UB
        | Some ob =>
          let s1 := set_obj s o (Some (mkObj (cnt ob - 1) (slots ob) (owned ob))) in
          if Z.eqb (cnt ob - 1) 0
          then do s2 <- del_members (release f) (slots ob) o s1; Ok (kill_obj s2 o)
          else Ok s1
        end
      end
    else UB
  end.

(** IpSmartPtr.hpp 590-612 [SetFromRawPtr_] (and the assignment operators 549-588 that call it). *)
Definition set_from_raw (s : st) (l : loc) (rhs : option nat) : res st :=
  do s1 <- (match rhs with None => Ok s | Some o => add_ref s o end);
  do s2 <- release (S (length (olist s1))) s1 l;
  if has_loc s2 l then Ok (set_ptr s2 l rhs) else UB.      (* ptr_ = rhs on a destroyed SmartPtr *)

Inductive op :=
| ONew (o n : nat)                  (* new object with n null member pointers, owned by nobody yet *)
| PNew (r : nat)                    (* default constructed SmartPtr variable *)
| PCopy (r : nat) (src : loc)       (* copy constructed SmartPtr variable *)
| PFromRaw (r : nat) (o : option nat)
| PDestroy (r : nat)
| AssignRaw (l : loc) (o : option nat)
| AssignPtr (l : loc) (src : loc).

Definition obj_alive (s : st) (o : option nat) : bool :=
  match o with None => true | Some x => match objs s x with None => false | Some _ => true end end.

Definition new_loc (s : st) (r : nat) : res st :=
  if has_loc s (Root r) then BadCall
  else Ok (mkSt (objs s) (olist s) (Root r :: locs s) (fun x => if loc_eq_dec x (Root r) then None else ptr s x)).

(** Constructors IpSmartPtr.hpp 437-507, destructor 509-517. *)
Definition step (s : st) (o : op) : res st :=
  match o with
  | ONew o n =>
      match objs s o with
      | Some _ => BadCall
      | None => Ok (mkSt (fun x => if Nat.eqb x o then Some (mkObj 0 n false) else objs s x) (o :: olist s)
                         (map (Mem o) (seq 0 n) ++ locs s)
                         (fun x => match x with Mem a k => if Nat.eqb a o then None else ptr s x | _ => ptr s x end))
      end
  | PNew r => new_loc s r
  | PCopy r src => if has_loc s src then do s1 <- new_loc s r; set_from_raw s1 (Root r) (ptr s src) else BadCall
  | PFromRaw r o => if obj_alive s o then do s1 <- new_loc s r; set_from_raw s1 (Root r) o else BadCall
  | PDestroy r =>
      if has_loc s (Root r) then do s1 <- release (S (length (olist s))) s (Root r); Ok (drop_loc s1 (Root r))
      else BadCall
  | AssignRaw l o => if has_loc s l && obj_alive s o then set_from_raw s l o else BadCall
  | AssignPtr l src => if has_loc s l && has_loc s src then set_from_raw s l (ptr s src) else BadCall
  end.

Fixpoint run (s : st) (l : list op) : res st :=
  match l with [] => Ok s | o :: l' => do s1 <- step s o; run s1 l' end.
