(** Model of the vector classes: DenseVector (src/LinAlg/IpDenseVector.cpp/.hpp),
    the public wrappers and default implementations of Vector
    (src/LinAlg/IpVector.cpp/.hpp) and CompoundVector
    (src/LinAlg/IpCompoundVector.cpp).

    The code is written over the type [Number]. The model is polymorphic in the
    number type and its operations, so that the same definitions are used with
    IEEE doubles ([num_ops]) and with exact real numbers ([R_ops]).

    Simplifications: loops [for i < Dim()] over an array of length Dim() are maps
    over a list of that length; BLAS reductions are left-to-right folds (the
    order of summation and the scaling in dnrm2 are those of the textbook
    definition; theorems about reductions are only stated for exact
    arithmetic); ObjectChanged/caches of reductions are not part of this file;
    DBG_ASSERTs are not executed (release build). The content of freshly
    allocated memory is an arbitrary list [junk]. *)
From Coq Require Import List Bool Arith ZArith Reals.
From Flocq Require Import Core BinarySingleNaN.
From Verif Require Import Num.
Import ListNotations.

(** Operations of the C++ type Number. *)
Record nops (T : Type) := {
  t0 : T; t1 : T; tm1 : T;
  tadd : T -> T -> T; tsub : T -> T -> T; tmul : T -> T -> T; tdiv : T -> T -> T;
  topp : T -> T; tabs : T -> T; tsqrt : T -> T; tlog : T -> T;
  tlt : T -> T -> bool; teq : T -> T -> bool;
  tnat : nat -> T;          (* conversion Index -> Number *)
  thuge : T                 (* std::numeric_limits<Number>::max() *)
}.
Arguments t0 {T}. Arguments t1 {T}. Arguments tm1 {T}. Arguments tadd {T}. Arguments tsub {T}.
Arguments tmul {T}. Arguments tdiv {T}. Arguments topp {T}. Arguments tabs {T}. Arguments tsqrt {T}.
Arguments tlog {T}. Arguments tlt {T}. Arguments teq {T}. Arguments tnat {T}. Arguments thuge {T}.

(** DBL_MAX = (2^53-1) * 2^971 *)
Definition dbl_max : num := @B754_finite 53 1024 false 9007199254740991 971 eq_refl.
(** IEEE doubles. The logarithm is a parameter. *)
Definition num_ops (lg : num -> num) : nops num := {|
  t0 := nzero; t1 := none; tm1 := nofZ (-1);
  tadd := nadd; tsub := nsub; tmul := nmul; tdiv := ndiv;
  topp := nopp; tabs := nabs; tsqrt := nsqrt; tlog := lg;
  tlt := nlt; teq := neqb; tnat := fun n => nofZ (Z.of_nat n);
  thuge := dbl_max |}.

(** Exact real numbers. *)
Definition R_ops (lg : R -> R) : nops R := {|
  t0 := 0%R; t1 := 1%R; tm1 := (-1)%R;
  tadd := Rplus; tsub := Rminus; tmul := Rmult; tdiv := Rdiv;
  topp := Ropp; tabs := Rabs; tsqrt := sqrt; tlog := lg;
  tlt := Rlt_bool; teq := Req_bool; tnat := INR;
  thuge := (9007199254740991 * bpow radix2 971)%R |}.

Fixpoint map2 {A B C} (f : A -> B -> C) (l : list A) (m : list B) : list C :=
  match l, m with a :: l, b :: m => f a b :: map2 f l m | _, _ => [] end.
Fixpoint map3 {A B C D} (f : A -> B -> C -> D) (l : list A) (m : list B) (k : list C) : list D :=
  match l, m, k with a :: l, b :: m, c :: k => f a b c :: map3 f l m k | _, _, _ => [] end.

Section Model.
Context {T : Type} (O : nops T).
Local Notation "x + y" := (tadd O x y).
Local Notation "x - y" := (tsub O x y).
Local Notation "x * y" := (tmul O x y).
Local Notation "x / y" := (tdiv O x y).
Local Notation "- x" := (topp O x).
Local Notation "x =? y" := (teq O x y).
Local Notation "x <? y" := (tlt O x y).

(** IpUtils.hpp 22-29, 52-59 *)
Definition tmax (a b : T) : T := if a <? b then b else a.
Definition tmin (a b : T) : T := if b <? a then b else a.

(** IpDenseVector.hpp 285-320: initialized_, homogeneous_, scalar_, values_
    (NULL = None). expanded_values_ is a scratch array and left out. *)
Record dvec := DV { init : bool; hom : bool; scal : T; vals : option (list T) }.

(** the array values_; reading it while NULL is undefined, modelled as [] *)
Definition vlist (v : dvec) : list T := match vals v with Some l => l | None => [] end.

(** IpDenseVector.cpp 22-38: constructor. scalar_ is not initialised for Dim()>0. *)
Definition d_new (n : nat) (jscal : T) : dvec :=
  if Nat.eqb n 0 then DV true true (t0 O) None else DV false false jscal None.

(** IpDenseVector.hpp 474-481: values_allocated *)
Definition allocated (junk : list T) (v : dvec) : list T :=
  match vals v with Some l => l | None => junk end.

(** IpDenseVector.cpp 53-64 *)
Definition d_setvalues (x : list T) (v : dvec) : dvec := DV true false (scal v) (Some x).

(** IpDenseVector.cpp 66-81: ExpandedValues *)
Definition d_expanded (n : nat) (v : dvec) : list T := if hom v then repeat (scal v) n else vlist v.

(** IpDenseVector.cpp 83-90 set_values_from_scalar and IpDenseVector.hpp 449-466 Values():
    the vector after the call; the returned pointer is its values_ array. *)
Definition d_values (n : nat) (junk : list T) (v : dvec) : dvec :=
  if init v && hom v then DV true false (scal v) (Some (repeat (scal v) n))
  else DV true false (scal v) (Some (allocated junk v)).

(** a user writing Values()[i] = a *)
Fixpoint upd {A} (i : nat) (a : A) (l : list A) : list A :=
  match i, l with 0%nat, _ :: l => a :: l | S i, b :: l => b :: upd i a l | _, [] => [] end.
Definition d_write (n : nat) (junk : list T) (i : nat) (a : T) (v : dvec) : dvec :=
  let w := d_values n junk v in DV true false (scal w) (Some (upd i a (vlist w))).

(** IpDenseVector.cpp 92-114 *)
Definition d_copy (x v : dvec) : dvec :=
  if hom x then DV true true (scal x) (vals v)
  else DV true false (scal v) (Some (vlist x)).

(** IpDenseVector.cpp 116-129 ScalImpl, inside Vector::Scal (IpVector.cpp 139-211):
    nothing is done for alpha = 1. *)
Definition d_scal (alpha : T) (v : dvec) : dvec :=
  if alpha =? t1 O then v
  else if hom v then DV true true (scal v * alpha) (vals v)
  else DV true false (scal v) (Some (map (fun y => alpha * y) (vlist v))).

(** reference daxpy with unit or zero stride of x: returns at once for alpha = 0 *)
Definition blas_axpy (alpha : T) (x y : list T) : list T :=
  if alpha =? t0 O then y else map2 (fun yi xi => yi + alpha * xi) y x.

(** IpDenseVector.cpp 131-178 *)
Definition d_axpy (n : nat) (alpha : T) (x v : dvec) : dvec :=
  if Nat.eqb n 0 then v
  else if hom v then
    if hom x then DV true true (scal v + alpha * scal x) (vals v)
    else DV true false (scal v) (Some (map (fun xi => scal v + alpha * xi) (vlist x)))
  else
    if hom x then
      if negb (scal x =? t0 O) then DV true false (scal v) (Some (blas_axpy alpha (repeat (scal x) n) (vlist v)))
      else v
    else DV true false (scal v) (Some (blas_axpy alpha (vlist x) (vlist v))).

Definition sum (l : list T) : T := fold_left (tadd O) l (t0 O).

(** IpDenseVector.cpp 180-221; ddot as a fold *)
Definition d_dot (n : nat) (x v : dvec) : T :=
  if Nat.eqb n 0 then t0 O
  else if hom v then
    if hom x then (tnat O n * scal v) * scal x
    else sum (map (fun xi => xi * scal v) (vlist x))
  else
    if hom x then sum (map (fun vi => scal x * vi) (vlist v))
    else sum (map2 (fun xi vi => xi * vi) (vlist x) (vlist v)).

(** IpDenseVector.cpp 223-234; dnrm2 as square root of the sum of squares *)
Definition d_nrm2 (n : nat) (v : dvec) : T :=
  if hom v then tsqrt O (tnat O n) * tabs O (scal v)
  else tsqrt O (sum (map (fun y => y * y) (vlist v))).

(** IpDenseVector.cpp 236-247 *)
Definition d_asum (n : nat) (v : dvec) : T :=
  if hom v then tnat O n * tabs O (scal v) else sum (map (tabs O) (vlist v)).

(** IpDenseVector.cpp 249-263; idamax finds the first element of largest absolute value *)
Definition blas_amax (l : list T) : T :=
  match l with [] => t0 O | y :: l => fold_left (fun m y => if m <? tabs O y then tabs O y else m) l (tabs O y) end.
Definition d_amax (n : nat) (v : dvec) : T :=
  if Nat.eqb n 0 then t0 O else if hom v then tabs O (scal v) else blas_amax (vlist v).

(** IpDenseVector.cpp 265-278 *)
Definition d_set (a : T) (v : dvec) : dvec := DV true true a None.

(** IpDenseVector.cpp 280-329, 331-383, 455-507, 509-561: the four element-wise
    binary operations of the same structure *)
Definition d_div (n : nat) (x v : dvec) : dvec :=
  if Nat.eqb n 0 then v
  else if hom v then
    if hom x then DV true true (scal v / scal x) (vals v)
    else DV true false (scal v) (Some (map (fun xi => scal v / xi) (vlist x)))
  else
    if hom x then DV true false (scal v) (Some (map (fun y => y / scal x) (vlist v)))
    else DV true false (scal v) (Some (map2 (fun y xi => y / xi) (vlist v) (vlist x))).
Definition d_mul (n : nat) (x v : dvec) : dvec :=
  if Nat.eqb n 0 then v
  else if hom v then
    if hom x then DV true true (scal v * scal x) (vals v)
    else DV true false (scal v) (Some (map (fun xi => scal v * xi) (vlist x)))
  else
    if hom x then
      if negb (scal x =? t1 O) then DV true false (scal v) (Some (map (fun y => y * scal x) (vlist v)))
      else v
    else DV true false (scal v) (Some (map2 (fun y xi => y * xi) (vlist v) (vlist x))).
Definition d_emax (n : nat) (x v : dvec) : dvec :=
  if Nat.eqb n 0 then v
  else if hom v then
    if hom x then DV true true (tmax (scal v) (scal x)) (vals v)
    else DV true false (scal v) (Some (map (fun xi => tmax (scal v) xi) (vlist x)))
  else
    if hom x then DV true false (scal v) (Some (map (fun y => tmax y (scal x)) (vlist v)))
    else DV true false (scal v) (Some (map2 (fun y xi => tmax y xi) (vlist v) (vlist x))).
Definition d_emin (n : nat) (x v : dvec) : dvec :=
  if Nat.eqb n 0 then v
  else if hom v then
    if hom x then DV true true (tmin (scal v) (scal x)) (vals v)
    else DV true false (scal v) (Some (map (fun xi => tmin (scal v) xi) (vlist x)))
  else
    if hom x then DV true false (scal v) (Some (map (fun y => tmin y (scal x)) (vlist v)))
    else DV true false (scal v) (Some (map2 (fun y xi => tmin y xi) (vlist v) (vlist x))).

(** IpDenseVector.cpp 385-453 *)
Definition sel (y x : T) : T :=
  if t0 O <? y then x else if y <? t0 O then - x else y.
Definition d_sel (n : nat) (x v : dvec) : dvec :=
  if Nat.eqb n 0 then v
  else if hom v then
    if scal v =? t0 O then v
    else if hom x then DV true true (scal v * scal x) (vals v)
    else DV true false (scal v) (Some (map (fun xi => scal v * xi) (vlist x)))
  else
    if hom x then
      if negb (scal x =? t1 O) then DV true false (scal v) (Some (map (fun y => sel y (scal x)) (vlist v)))
      else v
    else DV true false (scal v) (Some (map2 sel (vlist v) (vlist x))).

(** IpDenseVector.cpp 563-584, 586-600, 602-616, 618-632, 728-764 *)
Definition d_map (n : nat) (f : T -> T) (v : dvec) : dvec :=
  if hom v then DV true true (f (scal v)) (vals v)
  else DV true false (scal v) (Some (map f (vlist v))).
Definition d_recip (n : nat) (v : dvec) : dvec := if Nat.eqb n 0 then v else d_map n (fun y => t1 O / y) v.
Definition d_abs (n : nat) (v : dvec) : dvec := d_map n (tabs O) v.
Definition d_sqrt (n : nat) (v : dvec) : dvec := d_map n (tsqrt O) v.
Definition sgn (y : T) : T := if t0 O <? y then t1 O else if y <? t0 O then tm1 O else t0 O.
Definition d_sgn (n : nat) (v : dvec) : dvec := d_map n sgn v.
Definition d_addscalar (n : nat) (a : T) (v : dvec) : dvec :=
  if hom v then DV true true (scal v + a) (vals v)
  else DV true false (scal v) (Some (blas_axpy (t1 O) (repeat a n) (vlist v))).

(** IpDenseVector.cpp 634-682 *)
Definition fold_max (l : list T) : T :=
  match l with [] => t0 O | y :: l => fold_left (fun m y => tmax y m) l y end.
Definition fold_min (l : list T) : T :=
  match l with [] => t0 O | y :: l => fold_left (fun m y => tmin y m) l y end.
Definition d_max (n : nat) (v : dvec) : T :=
  if Nat.eqb n 0 then - thuge O else if hom v then scal v else fold_max (vlist v).
Definition d_min (n : nat) (v : dvec) : T :=
  if Nat.eqb n 0 then thuge O else if hom v then scal v else fold_min (vlist v).

(** IpDenseVector.cpp 684-701, 703-726 *)
Definition d_sum (n : nat) (v : dvec) : T := if hom v then tnat O n * scal v else sum (vlist v).
Definition d_sumlogs (n : nat) (v : dvec) : T :=
  if Nat.eqb n 0 then t0 O
  else if hom v then tnat O n * tlog O (scal v) else sum (map (tlog O) (vlist v)).

(** Vector::AddTwoVectorsImpl, IpVector.cpp 46-109. [al1]/[al2] tell that v1/v2 is
    the target vector itself, in which case a read sees its current state. *)
Definition deref (al : bool) (cur v : dvec) : dvec := if al then cur else v.
Definition d_addtwo_default (n : nat) (a : T) (al1 : bool) (v1 : dvec) (b : T) (al2 : bool) (v2 : dvec) (c : T) (v : dvec) : dvec :=
  if c =? t0 O then
    if a =? t1 O then
      let w := d_copy (deref al1 v v1) v in
      if negb (b =? t0 O) then d_axpy n b (deref al2 w v2) w else w
    else if a =? t0 O then
      if b =? t0 O then d_set (t0 O) v
      else let w := d_copy (deref al2 v v2) v in
           if negb (b =? t1 O) then d_scal b w else w
    else
      if b =? t1 O then
        let w := d_copy (deref al2 v v2) v in d_axpy n a (deref al1 w v1) w
      else if b =? t0 O then d_scal a (d_copy (deref al1 v v1) v)
      else let w := d_scal a (d_copy (deref al1 v v1) v) in
           d_axpy n b (deref al2 w v2) w
  else
    let w := if negb (c =? t1 O) then d_scal c v else v in
    let w := if negb (a =? t0 O) then d_axpy n a (deref al1 w v1) w else w in
    if negb (b =? t0 O) then d_axpy n b (deref al2 w v2) w else w.

(** the loop [for i < Dim() IpBlasAxpy(Dim(), 1., values_v2, 1, values_, 1)] *)
Fixpoint repeat_axpy (k : nat) (alpha : T) (x y : list T) : list T :=
  match k with 0%nat => y | S k => repeat_axpy k alpha x (blas_axpy alpha x y) end.

(** the 64 cases of IpDenseVector.cpp 840-1323 for arrays y (values_), v1, v2.
    An element-wise loop reads and writes position i only, so that it is also
    right if the arrays are the same. *)
Definition addtwo_cases (n : nat) (a : T) (v1 : list T) (b : T) (v2 : list T) (c : T) (y : list T) : list T :=
  if c =? t0 O then
    if a =? t1 O then
      if b =? t0 O then v1
      else if b =? t1 O then map2 (fun p q => p + q) v1 v2
      else if b =? tm1 O then map2 (fun p q => p - q) v1 v2
      else map2 (fun p q => p + b * q) v1 v2
    else if a =? tm1 O then
      if b =? t0 O then map (fun p => - p) v1
      else if b =? t1 O then map2 (fun p q => (- p) + q) v1 v2
      else if b =? tm1 O then map2 (fun p q => (- p) - q) v1 v2
      else map2 (fun p q => (- p) + b * q) v1 v2
    else if a =? t0 O then
      if b =? t0 O then repeat (t0 O) n
      else if b =? t1 O then v2      (* copied Dim() times *)
      else if b =? tm1 O then map (fun q => - q) v2
      else map (fun q => b * q) v2
    else
      if b =? t0 O then map (fun p => a * p) v1
      else if b =? t1 O then map2 (fun p q => a * p + q) v1 v2
      else if b =? tm1 O then map2 (fun p q => a * p - q) v1 v2
      else map2 (fun p q => a * p + b * q) v1 v2
  else if c =? t1 O then
    if a =? t1 O then
      if b =? t0 O then blas_axpy (t1 O) v1 y
      else if b =? t1 O then map3 (fun u p q => u + (p + q)) y v1 v2
      else if b =? tm1 O then map3 (fun u p q => u + (p - q)) y v1 v2
      else map3 (fun u p q => u + (p + b * q)) y v1 v2
    else if a =? tm1 O then
      if b =? t0 O then blas_axpy (tm1 O) v1 y
      else if b =? t1 O then map3 (fun u p q => u + ((- p) + q)) y v1 v2
      else if b =? tm1 O then map3 (fun u p q => u + ((- p) - q)) y v1 v2
      else map3 (fun u p q => u + ((- p) + b * q)) y v1 v2
    else if a =? t0 O then
      if b =? t0 O then y
      else if b =? t1 O then repeat_axpy n (t1 O) v2 y     (* lines 1032-1038 *)
      else if b =? tm1 O then blas_axpy (tm1 O) v2 y
      else blas_axpy b v2 y
    else
      if b =? t0 O then blas_axpy a v1 y
      else if b =? t1 O then map3 (fun u p q => u + (a * p + q)) y v1 v2
      else if b =? tm1 O then map3 (fun u p q => u + (a * p - q)) y v1 v2
      else map3 (fun u p q => u + (a * p + b * q)) y v1 v2
  else if c =? tm1 O then
    if a =? t1 O then
      if b =? t0 O then map2 (fun p u => p - u) v1 y
      else if b =? t1 O then map3 (fun u p q => (p + q) - u) y v1 v2
      else if b =? tm1 O then map3 (fun u p q => (p - q) - u) y v1 v2
      else map3 (fun u p q => (p + b * q) - u) y v1 v2
    else if a =? tm1 O then
      if b =? t0 O then map2 (fun p u => (- p) - u) v1 y
      else if b =? t1 O then map3 (fun u p q => ((- p) + q) - u) y v1 v2
      else if b =? tm1 O then map3 (fun u p q => ((- p) - q) - u) y v1 v2
      else map3 (fun u p q => ((- p) + b * q) - u) y v1 v2
    else if a =? t0 O then
      if b =? t0 O then map (fun u => tm1 O * u) y
      else if b =? t1 O then map2 (fun q u => q - u) v2 y
      else if b =? tm1 O then map2 (fun q u => (- q) - u) v2 y
      else map2 (fun q u => b * q - u) v2 y
    else
      if b =? t0 O then map2 (fun p u => a * p - u) v1 y
      else if b =? t1 O then map3 (fun u p q => (a * p + q) - u) y v1 v2
      else if b =? tm1 O then map3 (fun u p q => (a * p - q) - u) y v1 v2
      else map3 (fun u p q => (a * p + b * q) - u) y v1 v2
  else
    if a =? t1 O then
      if b =? t0 O then map2 (fun p u => p + c * u) v1 y
      else if b =? t1 O then map3 (fun u p q => (p + q) + c * u) y v1 v2
      else if b =? tm1 O then map3 (fun u p q => (p - q) + c * u) y v1 v2
      else map3 (fun u p q => (p + b * q) + c * u) y v1 v2
    else if a =? tm1 O then
      if b =? t0 O then map2 (fun p u => (- p) + c * u) v1 y
      else if b =? t1 O then map3 (fun u p q => ((- p) + q) + c * u) y v1 v2
      else if b =? tm1 O then map3 (fun u p q => ((- p) - q) + c * u) y v1 v2
      else map3 (fun u p q => ((- p) + b * q) + c * u) y v1 v2
    else if a =? t0 O then
      if b =? t0 O then map (fun u => c * u) y
      else if b =? t1 O then map2 (fun q u => q + c * u) v2 y
      else if b =? tm1 O then map2 (fun q u => (- q) + c * u) v2 y
      else map2 (fun q u => b * q + c * u) v2 y
    else
      if b =? t0 O then map2 (fun p u => a * p + c * u) v1 y
      else if b =? t1 O then map3 (fun u p q => (a * p + q) + c * u) y v1 v2
      else if b =? tm1 O then map3 (fun u p q => (a * p - q) + c * u) y v1 v2
      else map3 (fun u p q => (a * p + b * q) + c * u) y v1 v2.

(** IpDenseVector.cpp 767-1324 AddTwoVectorsImpl *)
Definition d_addtwo (n : nat) (junk : list T) (a : T) (al1 : bool) (v1 : dvec) (b : T) (al2 : bool) (v2 : dvec) (c : T) (v : dvec) : dvec :=
  if Nat.eqb n 0 then v
  else
    let h1 := negb (a =? t0 O) && hom v1 in
    let h2 := negb (b =? t0 O) && hom v2 in
    if ((c =? t0 O) || hom v) && h1 && h2 then
      let val := if negb (c =? t0 O) then c * scal v else t0 O in
      DV true true ((val + a * scal v1) + b * scal v2) (vals v)
    else
      let v := if c =? t0 O then DV (init v) false (scal v) (Some (allocated junk v)) else v in
      if hom v || h1 || h2 then d_addtwo_default n a al1 v1 b al2 v2 c v
      else DV true false (scal v)
             (Some (addtwo_cases n a (vlist (deref al1 v v1)) b (vlist (deref al2 v v2)) c (vlist v))).

(** IpDenseVector.cpp 1326-1390 FracToBoundImpl *)
Definition frac1 (tau : T) (alpha d x : T) : T := tmin alpha (((- tau) / d) * x).
Definition d_frac (n : nat) (tau : T) (delta x : dvec) : T :=
  if Nat.eqb n 0 then t1 O
  else if hom x then
    if hom delta then
      if scal delta <? t0 O then frac1 tau (t1 O) (scal delta) (scal x) else t1 O
    else fold_left (fun alpha d => if d <? t0 O then frac1 tau alpha d (scal x) else alpha) (vlist delta) (t1 O)
  else
    if hom delta then
      if scal delta <? t0 O then
        fold_left (fun alpha xi => frac1 tau alpha (scal delta) xi) (vlist x) (t1 O)
      else t1 O
    else fold_left (fun alpha dx => if fst dx <? t0 O then frac1 tau alpha (fst dx) (snd dx) else alpha)
           (combine (vlist delta) (vlist x)) (t1 O).

(** IpDenseVector.cpp 1392-1537 AddVectorQuotientImpl (right also if z or s is the
    target: flags and arrays are read before the target changes and position by
    position) *)
Definition d_addquot (n : nat) (junk : list T) (a : T) (z s : dvec) (c : T) (v : dvec) : dvec :=
  if Nat.eqb n 0 then v
  else if ((c =? t0 O) || hom v) && hom z && hom s then
    DV true true (if c =? t0 O then (a * scal z) / scal s else c * scal v + (a * scal z) / scal s) None
  else
    let y := allocated junk v in
    let r :=
      if c =? t0 O then
        if hom z then map (fun si => (a * scal z) / si) (vlist s)
        else if hom s then map (fun zi => (zi * a) / scal s) (vlist z)
        else map2 (fun zi si => (a * zi) / si) (vlist z) (vlist s)
      else if hom v then
        let val := c * scal v in
        if hom z then map (fun si => val + (a * scal z) / si) (vlist s)
        else if hom s then map (fun zi => val + (zi * a) / scal s) (vlist z)
        else map2 (fun zi si => val + (a * zi) / si) (vlist z) (vlist s)
      else
        if hom z then
          if hom s then map (fun u => c * u + (a * scal z) / scal s) y
          else map2 (fun u si => c * u + (a * scal z) / si) y (vlist s)
        else
          if hom s then map2 (fun u zi => c * u + (zi * a) / scal s) y (vlist z)
          else map3 (fun u zi si => c * u + (a * zi) / si) y (vlist z) (vlist s) in
    DV true false (scal v) (Some r).

(** IpDenseVector.cpp 1539-1563 CopyToPos, [nx] = x.Dim(). Line 1554 copies the
    target's scalar_. *)
Definition blit {A} (pos : nat) (x l : list A) : list A := firstn pos l ++ x ++ skipn (pos + length x) l.
Definition d_copytopos (junk : list T) (pos nx : nat) (x v : dvec) : dvec :=
  let l := allocated junk v in
  DV true false (scal v)
     (Some (blit pos (if hom x then repeat (scal v) nx else vlist x) l)).

(** IpDenseVector.cpp 1565-1585 CopyFromPos *)
Definition d_copyfrompos (n : nat) (junk : list T) (pos : nat) (x v : dvec) : dvec :=
  if hom x then d_set (scal x) v
  else let w := d_values n junk v in
       DV true false (scal w) (Some (firstn n (skipn pos (vlist x)))).

(** ** Compound vectors: trees of dense vectors *)
Inductive vec := Dense (n : nat) (d : dvec) | Comp (l : list vec).

(** IpCompoundVector.cpp: element-wise operations call the operation of each
    component (e.g. ScalImpl 96-107, SetImpl 197-208, ElementWiseAbsImpl 305-313). *)
Fixpoint lift1 (f : nat -> dvec -> dvec) (v : vec) : vec :=
  match v with
  | Dense n d => Dense n (f n d)
  | Comp l => Comp (map (lift1 f) l)
  end.
(** operations with one operand: CopyImpl 79-94, AxpyImpl 109-126,
    ElementWise{Divide,Multiply,Select,Max,Min}Impl 210-293 *)
Fixpoint lift2 (f : nat -> dvec -> dvec -> dvec) (x v : vec) {struct v} : vec :=
  match v, x with
  | Dense n d, Dense _ dx => Dense n (f n dx d)
  | Comp l, Comp lx =>
      Comp ((fix go l lx {struct l} := match l, lx with v :: l, x :: lx => lift2 f x v :: go l lx | _, _ => [] end) l lx)
  | _, _ => v
  end.
(** two operands: AddTwoVectorsImpl 393-414, AddVectorQuotientImpl 436-456 *)
Fixpoint lift3 (f : nat -> dvec -> dvec -> dvec -> dvec) (x z v : vec) {struct v} : vec :=
  match v, x, z with
  | Dense n d, Dense _ dx, Dense _ dz => Dense n (f n dx dz d)
  | Comp l, Comp lx, Comp lz =>
      Comp ((fix go l lx lz {struct l} :=
               match l, lx, lz with v :: l, x :: lx, z :: lz => lift3 f x z v :: go l lx lz | _, _, _ => [] end) l lx lz)
  | _, _, _ => v
  end.

(** Dim() *)
Fixpoint dim (v : vec) : nat :=
  match v with Dense n _ => n | Comp l => list_sum (map dim l) end.

(** DotImpl 128-144 *)
Fixpoint v_dot (x v : vec) {struct v} : T :=
  match v, x with
  | Dense n d, Dense _ dx => d_dot n dx d
  | Comp l, Comp lx =>
      (fix go acc l lx {struct l} := match l, lx with v :: l, x :: lx => go (acc + v_dot x v) l lx | _, _ => acc end) (t0 O) l lx
  | _, _ => t0 O
  end.
(** Nrm2Impl 146-157 *)
Fixpoint v_nrm2 (v : vec) : T :=
  match v with
  | Dense n d => d_nrm2 n d
  | Comp l => tsqrt O (fold_left (fun acc r => acc + r * r) (map v_nrm2 l) (t0 O))
  end.
(** AsumImpl 159-169 *)
Fixpoint v_asum (v : vec) : T :=
  match v with
  | Dense n d => d_asum n d
  | Comp l => fold_left (tadd O) (map v_asum l) (t0 O)
  end.
(** AmaxImpl 171-181 *)
Fixpoint v_amax (v : vec) : T :=
  match v with
  | Dense n d => d_amax n d
  | Comp l => fold_left tmax (map v_amax l) (t0 O)
  end.
(** MaxImpl 336-350, MinImpl 352-366 *)
Fixpoint v_max (v : vec) : T :=
  match v with
  | Dense n d => d_max n d
  | Comp l => fold_left (fun m p => if negb (Nat.eqb (fst p) 0) then tmax m (snd p) else m) (map (fun c => (dim c, v_max c)) l) (- thuge O)
  end.
Fixpoint v_min (v : vec) : T :=
  match v with
  | Dense n d => d_min n d
  | Comp l => fold_left (fun m p => if negb (Nat.eqb (fst p) 0) then tmin m (snd p) else m) (map (fun c => (dim c, v_min c)) l) (thuge O)
  end.
(** SumImpl 368-378, SumLogsImpl 380-390 *)
Fixpoint v_sum (v : vec) : T :=
  match v with
  | Dense n d => d_sum n d
  | Comp l => fold_left (tadd O) (map v_sum l) (t0 O)
  end.
Fixpoint v_sumlogs (v : vec) : T :=
  match v with
  | Dense n d => d_sumlogs n d
  | Comp l => fold_left (tadd O) (map v_sumlogs l) (t0 O)
  end.
(** FracToBoundImpl 416-434 *)
Fixpoint v_frac (tau : T) (delta x : vec) {struct x} : T :=
  match x, delta with
  | Dense n d, Dense _ dd => d_frac n tau dd d
  | Comp l, Comp ld =>
      (fix go alpha l ld {struct l} := match l, ld with x :: l, d :: ld => go (tmin alpha (v_frac tau d x)) l ld | _, _ => alpha end) (t1 O) l ld
  | _, _ => t1 O
  end.

(** ** Operations of the public interface of Vector (IpVector.hpp 527-930) on a
    heap of vectors; operands are given by their index, the target may be one of them. *)
Inductive op :=
| OCopy (x : nat) | OScal (a : T) | OAxpy (a : T) (x : nat) | OSet (a : T)
| ODiv (x : nat) | OMul (x : nat) | OSel (x : nat) | OMax (x : nat) | OMin (x : nat)
| ORecip | OAbs | OSqrt | OSgn | OAddScalar (a : T)
| OAddTwo (a : T) (x : nat) (b : T) (z : nat) (c : T)
| OAddOne (a : T) (x : nat) (c : T)
| OAddQuot (a : T) (x z : nat) (c : T)
(* DenseVector only *)
| OSetValues (l : list T) | OWrite (i : nat) (a : T) | OCopyFromPos (pos x : nat).

Definition exec (junk : nat -> list T) (h : nat -> vec) (i : nat) (o : op) : vec :=
  let v := h i in
  match o with
  | OCopy x => lift2 (fun _ => d_copy) (h x) v
  | OScal a => lift1 (fun _ => d_scal a) v
  | OAxpy a x => lift2 (fun n => d_axpy n a) (h x) v
  | OSet a => lift1 (fun _ => d_set a) v
  | ODiv x => lift2 d_div (h x) v
  | OMul x => lift2 d_mul (h x) v
  | OSel x => lift2 d_sel (h x) v
  | OMax x => lift2 d_emax (h x) v
  | OMin x => lift2 d_emin (h x) v
  | ORecip => lift1 d_recip v
  | OAbs => lift1 d_abs v
  | OSqrt => lift1 d_sqrt v
  | OSgn => lift1 d_sgn v
  | OAddScalar a => lift1 (fun n => d_addscalar n a) v
  | OAddTwo a x b z c =>
      lift3 (fun n v1 v2 => d_addtwo n (junk n) a (Nat.eqb x i) v1 b (Nat.eqb z i) v2 c) (h x) (h z) v
  | OAddOne a x c =>          (* IpVector.hpp: AddTwoVectors(a, v1, 0., v1, c) *)
      lift3 (fun n v1 v2 => d_addtwo n (junk n) a (Nat.eqb x i) v1 (t0 O) (Nat.eqb x i) v2 c) (h x) (h x) v
  | OAddQuot a x z c => lift3 (fun n z s => d_addquot n (junk n) a z s c) (h x) (h z) v
  | OSetValues l => match v with Dense n d => Dense n (d_setvalues l d) | _ => v end
  | OWrite k a => match v with Dense n d => Dense n (d_write n (junk n) k a d) | _ => v end
  | OCopyFromPos pos x =>
      match v, h x with Dense n d, Dense _ dx => Dense n (d_copyfrompos n (junk n) pos dx d) | _, _ => v end
  end.

Definition hset (h : nat -> vec) (i : nat) (v : vec) : nat -> vec := fun j => if (Nat.eqb j i) then v else h j.

(** a program: a list of operations with their target *)
Fixpoint run (junk : nat -> list T) (h : nat -> vec) (p : list (nat * op)) : nat -> vec :=
  match p with
  | [] => h
  | (i, o) :: p => run junk (hset h i (exec junk h i o)) p
  end.

End Model.
Arguments dvec : clear implicits.
Arguments vec : clear implicits.
Arguments op : clear implicits.
