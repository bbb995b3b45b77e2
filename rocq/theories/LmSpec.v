(** Specification of the limited-memory quasi-Newton approximation, written without the
    arrays and factorisations of the code. Iterates are listed latest first. *)
From Coq Require Import List Bool Arith Reals.
From Verif Require Import LmModel.
Import ListNotations.
Local Open Scope R_scope.

(** gradient at [at_it] of the Lagrangian function with the multipliers of [mult] *)
Definition grad_lagrangian (at_it mult : iter) : vec := fun i =>
  i_grad at_it i + i_jcT at_it (i_yc mult) i + i_jdT at_it (i_yd mult) i.
(** the pair of two consecutive iterates *)
Definition pair_of (last it : iter) : vec * vec :=
  (fun i => i_x it i - i_x last i, fun i => grad_lagrangian it it i - grad_lagrangian last it i).

(** the last [m] elements of a list *)
Definition last_n {A} (m : nat) (l : list A) : list A := skipn (length l - m) l.
(** a pair is used if the step is not tiny and its curvature is positive enough *)
Definition usable (o : options) (n : nat) (p : vec * vec) : Prop :=
  100 * o_eps o <= amax n (fst p) /\ sqrt (o_eps o) * nrm2 n (fst p) * nrm2 n (snd p) < dot n (fst p) (snd p).
(** scaling of the initial matrix after a used pair *)
Definition formula_sigma (o : options) (n : nat) (p : vec * vec) : R :=
  let (s, y) := p in
  match o_init o with
  | SCALAR1 => dot n s y / dot n s s
  | SCALAR2 => dot n y y / dot n s y
  | SCALAR3 => (dot n s y / dot n s s + dot n y y / dot n s y) / 2
  | SCALAR4 => sqrt (dot n y y / dot n s s)
  | CONSTANT => o_init_val o
  end.
Definition clamp (lo hi x : R) : R := Rmax (Rmin hi x) lo.
(** what the approximation is built from: pairs (oldest first), scaling, number of
    successive skipped updates *)
Inductive bfgs_history (o : options) (n : nat) : list iter -> list (vec * vec) -> R -> nat -> Prop :=
| h_start it : bfgs_history o n [it] [] (o_init_val o) 0
| h_reset it last rest h sigma k :
    bfgs_history o n (last :: rest) h sigma k -> (o_max_skipping o <= k)%nat ->
    bfgs_history o n (it :: last :: rest) [] (o_init_val o) 0
| h_use it last rest h sigma k :
    bfgs_history o n (last :: rest) h sigma k -> (k < o_max_skipping o)%nat ->
    usable o n (pair_of last it) ->
    bfgs_history o n (it :: last :: rest) (last_n (o_max_history o) (h ++ [pair_of last it]))
      (clamp (o_sigma_min o) (o_sigma_max o) (formula_sigma o n (pair_of last it))) 0
| h_skip it last rest h sigma k :
    bfgs_history o n (last :: rest) h sigma k -> (k < o_max_skipping o)%nat ->
    ~ usable o n (pair_of last it) ->
    bfgs_history o n (it :: last :: rest) h sigma (k + 1).

(** the textbook BFGS formula, B + y y'/(s'y) - (B s)(B s)'/(s'B s), for matrices given by
    their products with vectors *)
Definition bfgs_step (n : nat) (B : vec -> vec) (p : vec * vec) : vec -> vec :=
  let (s, y) := p in
  fun x i => B x i + dot n y x / dot n s y * y i - dot n (B s) x / dot n s (B s) * B s i.
Definition bfgs_matrix (n : nat) (sigma : R) (h : list (vec * vec)) : vec -> vec :=
  fold_left (bfgs_step n) h (fun x i => sigma * x i).

(** symmetric positive definite *)
Definition symmetric (n : nat) (B : vec -> vec) : Prop := forall x y, dot n x (B y) = dot n (B x) y.
Definition positive_definite (n : nat) (B : vec -> vec) : Prop :=
  forall x, (exists i, (i < n)%nat /\ x i <> 0) -> 0 < dot n x (B x).

(** what is assumed of LAPACK, in exact arithmetic *)
Definition delta (i j : nat) : R := if (i =? j)%nat then 1 else 0.
Definition pd_matrix (k : nat) (M : nat -> nat -> R) : Prop :=
  (forall i j, (i < k)%nat -> (j < k)%nat -> M i j = M j i) /\
  forall a : vec, (exists i, (i < k)%nat /\ a i <> 0) -> 0 < sumn k (fun i => sumn k (fun j => a i * M i j * a j)).
Definition lapack_ok (o : options) : Prop := forall k M,
  (forall i j, (i < k)%nat -> (j < k)%nat -> M i j = M j i) ->
  (forall J, o_chol o k M = Some J ->
     forall i j, (i < k)%nat -> (j < k)%nat ->
       M i j = sumn k (fun l => J i l * J j l) /\
       sumn k (fun l => J l i * o_inv o k J l j) = delta i j /\
       sumn k (fun l => o_inv o k J i l * J j l) = delta i j) /\
  (pd_matrix k M -> o_chol o k M <> None).
(** the result of the eigenvalue computation for the k-by-k matrix Z: orthonormal
    eigenvectors, eigenvalues in ascending order *)
Definition eig_ok (k : nat) (Z : nat -> nat -> R) (E : nat -> R) (Q : nat -> nat -> R) : Prop :=
  (forall i j, (i < k)%nat -> (j < k)%nat ->
     sumn k (fun l => Z i l * Q l j) = Q i j * E j /\ sumn k (fun l => Q i l * Q j l) = delta i j) /\
  (forall i j, (i <= j)%nat -> (j < k)%nat -> E i <= E j).
Definition options_ok (o : options) : Prop :=
  0 < o_init_val o /\ 0 < o_sigma_min o /\ o_sigma_min o <= o_sigma_max o /\ 0 < o_eps o.
