(** Vocabulary for C91, C92. *)
From Coq Require Import Reals List.
From Verif Require Import Num InitModel InitSpec WarmModel.
Import ListNotations.
Open Scope R_scope.

(** the variable as the starting-point vocabulary of C30 sees it *)
Definition position (w : wvar) : var (T:=R) := VAR (w_x w) (w_lo w) (w_up w).
(** numbers above [m] become [m]; [m <= 0]: no limit *)
Definition limited (m z z' : R) : Prop := (m <= 0 -> z' = z) /\ (0 < m -> z' = Rmin z m).
(** [y'] is the number in [-m, m] nearest to [y]; [m <= 0]: no limit *)
Definition limited_abs (m y y' : R) : Prop := (m <= 0 -> y' = y) /\ (0 < m -> nearest (fun z => - m <= z <= m) y y').
(** [w'] is [w] with the position moved to the nearest one well inside the bounds and the multipliers raised to [p] *)
Definition moved_inside (push frac tiny p : R) (w w' : wvar) : Prop :=
  w_lo w' = w_lo w /\ w_up w' = w_up w /\
  nearest (well_inside push frac tiny (w_lo w) (w_up w)) (w_x w) (w_x w') /\
  (forall l, w_lo w = Some l -> l < w_x w') /\ (forall u, w_up w = Some u -> w_x w' < u) /\
  w_zl w' = Rmax (w_zl w) p /\ w_zu w' = Rmax (w_zu w) p.
(** [(s', z')] are positive with product [t]: the larger of [s], [z] is kept if it is more than 10000 times the other one and
    at least the new value of that; otherwise both are the root of [t] *)
Definition matched (t s z s' z' : R) : Prop :=
  0 < s' /\ 0 < z' /\ s' * z' = t /\
  ((10000 * z < s /\ s' = s /\ z' <= s) \/ (10000 * s < z /\ z' = z /\ s' <= z) \/
   (s' = z' /\ ~ (10000 * z < s /\ t <= s * s) /\ ~ (10000 * s < z /\ t <= z * z))).
(** one bound at most, and a slack that needs no safeguard *)
Definition one_sided (smin : R) (w : wvar) : Prop :=
  (w_lo w = None \/ w_up w = None) /\
  (forall l, w_lo w = Some l -> smin <= w_x w - l) /\ (forall u, w_up w = Some u -> smin <= u - w_x w).
(** [w1] is [w] with slack and multiplier of its bound matched to [t] *)
Definition on_target (t : R) (w w1 : wvar) : Prop :=
  w_lo w1 = w_lo w /\ w_up w1 = w_up w /\
  (forall l, w_lo w = Some l -> matched t (w_x w - l) (w_zl w) (w_x w1 - l) (w_zl w1)) /\
  (forall u, w_up w = Some u -> matched t (u - w_x w) (w_zu w) (u - w_x w1) (w_zu w1)) /\
  (w_lo w = None -> w_up w = None -> w_x w1 = w_x w).
