(** What the reduced problem is. Constraints and variables count from 0 (C style). *)
From Coq Require Import Reals ZArith List Arith Bool.
From Verif Require Import TredModel.
Import ListNotations.

Definition skipped (S : list Z) (i : nat) : bool := existsb (Z.eqb (Z.of_nat i)) S.
(** the constraints that stay, in order *)
Definition kept (S : list Z) (m : nat) : list nat := filter (fun i => negb (skipped S i)) (seq 0 m).
(** the elements of a vector that belong to them *)
Definition keep_of {X} (S : list Z) (v : list X) : list X :=
  map snd (filter (fun p => negb (skipped S (fst p))) (combine (seq 0 (length v)) v)).
(** a list of indices somebody may give: no duplicates, all in range *)
Definition valid (S : list Z) (m : nat) : Prop := NoDup S /\ Forall (fun a => (0 <= a < Z.of_nat m)%Z) S.
(** multipliers for all constraints: those of the reduced problem, zero for the others *)
Definition extends {V} (zero : V) (S : list Z) (m : nat) (lam e : list V) : Prop :=
  length e = m /\ keep_of S e = lam /\ forall i, (i < m)%nat -> skipped S i = true -> nth_error e i = Some zero.
(** the entry (r,c) of the matrix of triplets *)
Fixpoint jmat (ir jc : list Z) (v : list R) (r c : Z) : R :=
  match ir, jc, v with
  | i :: ir, j :: jc, x :: v => ((if (i =? r)%Z && (j =? c)%Z then x else 0) + jmat ir jc v r c)%R
  | _, _, _ => 0%R
  end.
Fixpoint dot (a b : list R) : R := match a, b with x :: a, y :: b => (x * y + dot a b)%R | _, _ => 0%R end.

(** a TNLP in C style with n variables, m constraints and this Jacobian structure *)
Record well {W V} (T : tnlp W V) (n m nzh : nat) (ir jc : list Z) : Prop := {
  w_info : forall w r w', t_info T w = (Some r, w') -> r = (n, m, length ir, nzh, C_STYLE);
  w_len : length jc = length ir;
  w_rows : Forall (fun i => (0 <= i < Z.of_nat m)%Z) ir;
  w_jacs : forall w r w', t_jacs T w = (Some r, w') -> r = (ir, jc);
  w_jacv : forall x b w v w', t_jacv T x b w = (Some v, w') -> length v = length ir;
  w_g : forall x b w v w', t_g T x b w = (Some v, w') -> length v = m;
  w_bounds : forall w xl xu gl gu w', t_bounds T w = (Some (xl, xu, gl, gu), w') -> length xl = n /\ length xu = n /\ length gl = m /\ length gu = m;
  w_scal : forall w o xs g w', t_scal T w = (Some (o, xs, Some g), w') -> length g = m;
  w_glin : forall w l w', t_glin T w = (Some l, w') -> length l = m;
  w_start : forall a b w x zl zu l w', t_start T a b true w = (Some (x, zl, zu, l), w') -> length l = m
}.

Section H.
Context {W V : Type}.
Variables (T : tnlp W V) (g xl xu fx : list Z).
(** the reducers reachable: get_nlp_info first (answering true), then anything; only get_nlp_info and eval_jac_g for the structure
    change the object. First flag: get_nlp_info has been called; second: eval_jac_g has last delivered the structure. *)
Inductive reach : bool -> bool -> red -> Prop :=
| R_new junk : reach false false (new_red g xl xu fx junk)
| R_info i s r w a w' r' : reach i s r -> get_info T w r = Some (Some a, w', r') -> reach true s r'
| R_struct s r iRow jCol w o w' r' : reach true s r -> eval_jac_structure T iRow jCol w r = Some (o, w', r') ->
    reach true (match o with Some _ => true | None => false end) r'.
End H.
