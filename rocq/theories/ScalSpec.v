(** Specification for problem scaling: derivatives, the optimality conditions of
    the user's problem, and norms, written without reference to the scaling
    code. Vectors are lists of real numbers. *)
From Coq Require Import List Bool Arith Reals.
From Verif Require Import VecModel ScalModel.
Import ListNotations.
Local Open Scope R_scope.

Definition dotp (a b : list R) : R := fold_right Rplus 0 (map2 Rmult a b).
(** the point x + t p *)
Definition along (x p : list R) (t : R) : list R := map2 (fun a b => a + t * b) x p.

(** g is the gradient of f at x: all directional derivatives are g . p *)
Definition is_gradient (f : list R -> R) (x g : list R) : Prop :=
  length g = length x /\
  forall p, length p = length x -> derivable_pt_lim (fun t => f (along x p t)) 0 (dotp g p).
(** J is (the linear map of) the Jacobian of c at x *)
Definition is_jacobian (c : list R -> list R) (x : list R) (J : list R -> list R) : Prop :=
  forall p i, length p = length x ->
    derivable_pt_lim (fun t => nth i (c (along x p t)) 0) 0 (nth i (J p) 0).
Definition rows_times (A : list (list R)) (v : list R) : list R := map (fun r => dotp r v) A.

(** (A^T y)_j *)
Definition tprod (A : list (list R)) (y : list R) (j : nat) : R := dotp y (map (fun r => nth j r 0) A).

(** component j of the gradient of obj*f + yc.c + yd.d *)
Definition lag_grad (p : nlp (T := R)) (obj : R) (yc yd x : list R) (j : nat) : R :=
  obj * nth j (n_grad p x) 0 + tprod (n_jc p x) yc j + tprod (n_jd p x) yd j.
(** H is (the linear map of) the Jacobian of x |-> G x at x *)
Definition is_derivative_of_gradient (n : nat) (G : list R -> nat -> R) (x : list R) (H : list R -> list R) : Prop :=
  forall p j, length p = n -> (j < n)%nat -> derivable_pt_lim (fun t => G (along x p t) j) 0 (nth j (H p) 0).

(** the bound multipliers of variable j: z_k belongs to variable pos_k *)
Definition zat (pos : list nat) (z : list R) (j : nat) : R :=
  fold_right (fun pv s => if Nat.eqb (fst pv) j then snd pv + s else s) 0 (combine pos z).

(** the user's problem: gradient of the Lagrangian, component j *)
Definition lag_res (p : nlp (T := R)) (lpos upos : list nat) (x yc yd zl zu : list R) (j : nat) : R :=
  nth j (n_grad p x) 0 + tprod (n_jc p x) yc j + tprod (n_jd p x) yd j - zat lpos zl j + zat upos zu j.
(** the same for the slack of inequality i: -yd - vl + vu *)
Definition slack_res (lpos upos : list nat) (yd vl vu : list R) (i : nat) : R :=
  - nth i yd 0 - zat lpos vl i + zat upos vu i.

(** all matrices and vectors have the right sizes at every point *)
Definition shape (n mc md : nat) (p : nlp (T := R)) : Prop :=
  forall x, length x = n ->
    length (n_grad p x) = n /\
    length (n_c p x) = mc /\ length (n_jc p x) = mc /\ Forall (fun r => length r = n) (n_jc p x) /\
    length (n_d p x) = md /\ length (n_jd p x) = md /\ Forall (fun r => length r = n) (n_jd p x) /\
    (forall o yc yd, length (n_h p x o yc yd) = n /\ Forall (fun r => length r = n) (n_h p x o yc yd)).

(** scaling factors: right sizes, none of them zero *)
Definition fac (d : option (list R)) (j : nat) : R := match d with Some d => nth j d 0 | None => 1 end.
Definition okfac (n : nat) (d : option (list R)) : Prop :=
  match d with Some d => length d = n /\ Forall (fun a => a <> 0) d | None => True end.
Definition okscal (n mc md : nat) (s : scaling (T := R)) : Prop :=
  sf s <> 0 /\ okfac n (sx s) /\ okfac mc (sc s) /\ okfac md (sd s).
(** positions of bounds: distinct and in range *)
Definition okpos (n : nat) (pos : list nat) : Prop := NoDup pos /\ Forall (fun i => (i < n)%nat) pos.

(** norms of all the numbers in a list of vectors *)
Definition norm_spec (nt : norm) (vs : list (list R)) : R :=
  let l := concat vs in
  match nt with
  | NORM_1 => fold_right Rplus 0 (map Rabs l)
  | NORM_2 => sqrt (fold_right Rplus 0 (map (fun a => a * a) l))
  | NORM_MAX => fold_right Rmax 0 (map Rabs l)
  end.

(** multipliers of the inequality slacks in the units of the user's problem *)
Definition user_v (s : scaling (T := R)) (pos : list nat) (v : list R) : list R :=
  map2 (fun i a => fac (sd s) i / sf s * a) pos v.
(** positive part *)
Definition pos_part (a : R) : R := Rmax a 0.
(** amounts by which components of d are below dl / above du *)
Definition below (pos : list nat) (d dl : list R) : list R := map2 (fun i l => pos_part (l - nth i d 0)) pos dl.
Definition above (pos : list nat) (d du : list R) : list R := map2 (fun i u => pos_part (nth i d 0 - u)) pos du.
(** products (distance to bound) * multiplier *)
Definition prod_low (pos : list nat) (x b z : list R) : list R := map3 (fun i b z => (nth i x 0 - b) * z) pos b z.
Definition prod_upp (pos : list nat) (x b z : list R) : list R := map3 (fun i b z => (b - nth i x 0) * z) pos b z.
