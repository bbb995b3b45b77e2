(** Specification of vector operations: a vector is the list of its elements,
    whatever the storage (one repeated value, element by element, or split into
    components). *)
From Coq Require Import List Bool Arith Reals.
From Verif Require Import VecModel.
Import ListNotations.

Section Spec.
Context {T : Type} (O : nops T).

(** the elements of a vector, as a user reads them *)
Definition dden (n : nat) (d : dvec T) : list T := if hom d then repeat (scal d) n else vlist d.
Fixpoint contents (v : vec T) : list T :=
  match v with
  | Dense n d => dden n d
  | Comp l => concat (map contents l)
  end.

(** a vector space: the dimension of a dense vector or the list of component spaces *)
Inductive space := SD (n : nat) | SC (l : list space).

(** an initialised vector of a space *)
Definition dok (n : nat) (d : dvec T) : Prop :=
  init d = true /\
  (hom d = false -> exists l, vals d = Some l /\ length l = n) /\
  (forall l, vals d = Some l -> length l = n).
Inductive vok : space -> vec T -> Prop :=
| vok_dense n d : dok n d -> vok (SD n) (Dense n d)
| vok_comp ls l : Forall2 vok ls l -> vok (SC ls) (Comp l).

(** sign-based selection as documented in IpVector.hpp: y_i <- sgn(y_i) x_i *)
Definition select (y x : T) : T :=
  if tlt O (t0 O) y then x else if tlt O y (t0 O) then topp O x else t0 O.
Definition sign (y : T) : T :=
  if tlt O (t0 O) y then t1 O else if tlt O y (t0 O) then tm1 O else t0 O.

(** the documented effect of each operation on lists of elements *)
Definition effect (h : nat -> list T) (i : nat) (o : op T) : list T :=
  let y := h i in
  match o with
  | OCopy x => h x
  | OScal a => map (fun y => tmul O y a) y
  | OAxpy a x => map2 (fun y x => tadd O y (tmul O a x)) y (h x)
  | OSet a => map (fun _ => a) y
  | ODiv x => map2 (tdiv O) y (h x)
  | OMul x => map2 (tmul O) y (h x)
  | OSel x => map2 select y (h x)
  | OMax x => map2 (fun y x => if tlt O y x then x else y) y (h x)
  | OMin x => map2 (fun y x => if tlt O x y then x else y) y (h x)
  | ORecip => map (fun y => tdiv O (t1 O) y) y
  | OAbs => map (tabs O) y
  | OSqrt => map (tsqrt O) y
  | OSgn => map sign y
  | OAddScalar a => map (fun y => tadd O y a) y
  | OAddTwo a x b z c =>
      map3 (fun y x z => tadd O (tadd O (tmul O a x) (tmul O b z)) (tmul O c y)) y (h x) (h z)
  | OAddOne a x c => map2 (fun y x => tadd O (tmul O a x) (tmul O c y)) y (h x)
  | OAddQuot a x z c =>
      map3 (fun y x z => if teq O c (t0 O) then tdiv O (tmul O a x) z
                         else tadd O (tmul O c y) (tdiv O (tmul O a x) z)) y (h x) (h z)
  | OSetValues l => l
  | OWrite k a => upd k a y
  | OCopyFromPos pos x => firstn (length y) (skipn pos (h x))
  end.

(** the call is a legal use of the interface *)
Definition legal (sp : nat -> space) (i : nat) (o : op T) : Prop :=
  match o with
  | OCopy x | OAxpy _ x | ODiv x | OMul x | OSel x | OMax x | OMin x | OAddOne _ x _ => sp x = sp i
  | OAddTwo _ x _ z _ | OAddQuot _ x z _ => sp x = sp i /\ sp z = sp i
  | OScal _ | OSet _ | ORecip | OAbs | OSqrt | OSgn | OAddScalar _ => True
  | OSetValues l => sp i = SD (length l)
  | OWrite k a => exists n, sp i = SD n /\ k < n
  | OCopyFromPos pos x => exists n nx, sp i = SD n /\ sp x = SD nx /\ pos + n <= nx
  end.

(** heaps of lists *)
Definition lset (h : nat -> list T) (i : nat) (l : list T) : nat -> list T :=
  fun j => if Nat.eqb j i then l else h j.
Fixpoint effects (h : nat -> list T) (p : list (nat * op T)) : nat -> list T :=
  match p with [] => h | (i, o) :: p => effects (lset h i (effect h i o)) p end.

(** operations that compute every element by one fixed formula, so that even the
    rounding errors do not depend on the storage *)
Definition elementwise (o : op T) : bool :=
  match o with OAxpy _ _ | OAddTwo _ _ _ _ _ | OAddOne _ _ _ | OSel _ => false | _ => true end.

End Spec.

(** ** Reductions of a list of real numbers *)
Open Scope R_scope.
Fixpoint rsum (l : list R) : R := match l with [] => 0 | x :: l => x + rsum l end.
(** m is the largest (smallest) element *)
Definition is_max (m : R) (l : list R) : Prop := In m l /\ forall x, In x l -> x <= m.
Definition is_min (m : R) (l : list R) : Prop := In m l /\ forall x, In x l -> m <= x.
(** largest step in [0,1] for which all components keep the fraction 1-tau of their value *)
Definition keeps_fraction (tau : R) (x d : list R) (a : R) : Prop :=
  Forall2 (fun x d => x + a * d >= (1 - tau) * x) x d.
Definition frac_rule (tau : R) (x d : list R) (a : R) : Prop :=
  0 <= a <= 1 /\ keeps_fraction tau x d a /\
  forall b, 0 <= b <= 1 -> keeps_fraction tau x d b -> b <= a.
