(** Vocabulary for C30-C32, C46, C47. *)
From Coq Require Import List Bool Reals.
From Verif Require Import Num InitModel.
Import ListNotations.
Local Open Scope R_scope.

(** ** C30: the required distance from a bound.
    [push], [frac]: options bound_push, bound_frac; [tiny]: 100 DBL_MIN. *)
Definition wanted_low (push frac tiny l : R) (up : option R) : R :=
  match up with
  | Some u => Rmin (push * Rmax 1 (Rabs l)) (frac * (u - l) - tiny)
  | None => push * Rmax 1 (Rabs l)
  end.
Definition wanted_upp (push frac tiny u : R) (lo : option R) : R :=
  tiny + match lo with
  | Some l => Rmin (push * Rmax 1 (Rabs u)) (frac * (u - l) - tiny)
  | None => push * Rmax 1 (Rabs u)
  end.
(** [x] has the required distance from the bounds *)
Definition well_inside (push frac tiny : R) (lo up : option R) (x : R) : Prop :=
  (forall l, lo = Some l -> l + wanted_low push frac tiny l up <= x) /\
  (forall u, up = Some u -> x <= u - wanted_upp push frac tiny u lo).
(** [y] is the point of the set nearest to [x] *)
Definition nearest (P : R -> Prop) (x y : R) : Prop := P y /\ forall z, P z -> Rabs (y - x) <= Rabs (z - x).
(** a variable with two bounds has room between them *)
Definition room (frac tiny : R) (v : var (T:=R)) : Prop :=
  forall l u, v_lo v = Some l -> v_up v = Some u -> tiny < frac * (u - l).

(** ** numbers of the machine *)
(** [x] is a number (not NaN) and as number at most / less than [y] *)
Definition num_le (x y : num) : Prop := nnan x = false /\ nnan y = false /\ key x <= key y.
Definition num_lt (x y : num) : Prop := nnan x = false /\ nnan y = false /\ key x < key y.
Definition positive (x : num) : Prop := nnan x = false /\ 0 < key x.

(** ** C32: the smallest slack that is left alone *)
Definition smallest_slack (eps dmin mu : num) : R :=
  let s := fl (key eps * Rmin 1 (key mu)) in if Req_EM_T s 0 then key dmin else s.
(** largest value a slack [s] for the bound [b] may be given *)
Definition largest_slack (move : num) (b s : num) : R :=
  fl (Rmax (key s) 0 + fl (key move * Rmax 1 (Rabs (key b)))).
(** numbers that a run works with *)
Definition usable (e : sl (T:=num)) : Prop :=
  nfin (s_val e) = true /\ nfin (s_bound e) = true /\ nnan (s_mult e) = false.
(** the same with exact arithmetic *)
Definition safe_value (mu move smin : R) (e : sl (T:=R)) : R :=
  if Rlt_dec (s_val e) smin
  then Rmin (Rmax (mu / s_mult e) smin) (Rmax (s_val e) 0 + move * Rmax 1 (Rabs (s_bound e)))
  else s_val e.

(** ** C47: [z] moved into [lo, hi] *)
Definition clamp (lo hi z : R) : R := Rmax lo (Rmin hi z).
