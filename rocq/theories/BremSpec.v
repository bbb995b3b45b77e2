(** Vocabulary for C93, C94. *)
From Coq Require Import Reals List Arith.
From Verif Require Import BremModel.
Import ListNotations.
Open Scope R_scope.

(** the k-th value [b] of [vals] and the component of [x] at the k-th position stand in relation [ok] *)
Definition each (ok : R -> R -> Prop) (pos : list nat) (vals x : list R) : Prop :=
  forall k i b, nth_error pos k = Some i -> nth_error vals k = Some b -> ok b (nth i x 0).
Definition feasible (P : problem) (x : list R) : Prop :=
  Forall (fun v => v = 0) (p_c P x) /\
  each Rle (p_xlp P) (p_xl P) x /\ each Rge (p_xup P) (p_xu P) x /\
  each Rle (p_dlp P) (p_dl P) (p_d P x) /\ each Rge (p_dup P) (p_du P) (p_d P x).

(** component [j] of (matrix with these rows)^T y *)
Fixpoint trans_mult (rows : list (nat -> R)) (y : list R) (j : nat) : R :=
  match rows, y with r :: rows, v :: y => r j * v + trans_mult rows y j | _, _ => 0 end.
(** component [j] of the vector with these values at these positions *)
Fixpoint place (pos : list nat) (v : list R) (j : nat) : R :=
  match pos, v with i :: pos, a :: v => (if Nat.eqb i j then a else 0) + place pos v j | _, _ => 0 end.
Definition dot0 (pos : list nat) (vals x m : list R) : Prop :=
  forall k i b z, nth_error pos k = Some i -> nth_error vals k = Some b -> nth_error m k = Some z -> z * (nth i x 0 - b) = 0.
Definition nonneg (v : list R) : Prop := Forall (fun z => 0 <= z) v.

(** The first-order optimality conditions of
    min f(x), c(x) = 0, xl <= x <= xu, dl <= d(x) <= du
    with multipliers y_c, y_d of the constraints, z_L, z_U of the bounds on x, v_L, v_U of the bounds on d. *)
Record kkt (P : problem) (x yc yd zl zu vl vu : list R) : Prop := {
  k_feasible : feasible P x;
  k_grad : forall j, (j < p_n P)%nat ->
    p_grad P x j + trans_mult (p_jc P x) yc j + trans_mult (p_jd P x) yd j - place (p_xlp P) zl j + place (p_xup P) zu j = 0;
  k_slack : forall k, (k < p_nd P)%nat -> - nth k yd 0 - place (p_dlp P) vl k + place (p_dup P) vu k = 0;
  k_signs : nonneg zl /\ nonneg zu /\ nonneg vl /\ nonneg vu;
  k_compl : dot0 (p_xlp P) (p_xl P) x zl /\ dot0 (p_xup P) (p_xu P) x zu /\
            dot0 (p_dlp P) (p_dl P) (p_d P x) vl /\ dot0 (p_dup P) (p_du P) (p_d P x) vu }.

(** dimensions fit *)
Record well_formed (P : problem) : Prop := {
  w_xl : length (p_xl P) = length (p_xlp P); w_xu : length (p_xu P) = length (p_xup P);
  w_dl : length (p_dl P) = length (p_dlp P); w_du : length (p_du P) = length (p_dup P);
  w_dlp : Forall (fun i => (i < p_nd P)%nat) (p_dlp P); w_dup : Forall (fun i => (i < p_nd P)%nat) (p_dup P);
  w_d : forall x, length (p_d P x) = p_nd P; w_jd : forall x, length (p_jd P x) = p_nd P }.

(** number of bounds of inequality [k] *)
Definition bounds_of (P : problem) (k : nat) : nat := (count_occ Nat.eq_dec (p_dlp P) k + count_occ Nat.eq_dec (p_dup P) k)%nat.
