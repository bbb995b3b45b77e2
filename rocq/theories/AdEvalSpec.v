(** What the user's object and the algorithm are promised about evaluations. *)
From Coq Require Import List Bool Arith ZArith.
From Verif Require Import VecModel ExpModel AdModel AdEvalModel.
Import ListNotations.

Section Spec.
Context {T : Type}.
Definition call_x (c : call T) : list T :=
  match c with CallF x _ | CallGrad x _ | CallG x _ | CallJac x _ | CallH x _ _ _ _ => x end.
Definition call_new_x (c : call T) : bool :=
  match c with CallF _ b | CallGrad _ b | CallG _ b | CallJac _ b | CallH _ b _ _ _ => b end.

(** Logs are latest first. IpTNLP.hpp 335: "new_x: false if any evaluation method
    was previously called with the same values in x". *)
Fixpoint new_x_documented (l : list (call T)) : Prop :=
  match l with
  | [] => True
  | c :: l => (call_new_x c = false -> In (call_x c) (map call_x l)) /\ new_x_documented l
  end.
(** what users that keep the last point rely on: the PREVIOUS call had this x *)
Fixpoint new_x_previous (l : list (call T)) : Prop :=
  match l with
  | [] => True
  | c :: l => (call_new_x c = false -> match l with c' :: _ => call_x c' = call_x c | [] => False end) /\ new_x_previous l
  end.
(** the multipliers of the latest eval_h call *)
Fixpoint last_lambda (l : list (call T)) : option (list T) :=
  match l with CallH _ _ _ lam _ :: _ => Some lam | _ :: l => last_lambda l | [] => None end.
Fixpoint new_lambda_previous (l : list (call T)) : Prop :=
  match l with
  | [] => True
  | c :: l' =>
      match c with CallH _ _ _ lam b => b = false -> last_lambda l' = Some lam | _ => True end /\ new_lambda_previous l'
  end.

(** the vector x, y_c, y_d an operation is called with *)
Definition op_x (o : op T) : Z :=
  match o with EvalF t | EvalGrad t | EvalC t | EvalD t | EvalJacC t | EvalJacD t | EvalH t _ _ _ | Finalize _ t _ _ => t end.
(** tags are positive (C03) *)
Definition tags_ok (o : op T) : Prop :=
  op_x o <> 0%Z /\ match o with EvalH _ _ c d | Finalize _ _ c d => c <> 0%Z /\ d <> 0%Z | _ => True end.
Definition is_final (o : op T) : bool := match o with Finalize _ _ _ _ => true | _ => false end.
Definition evaluates_g (o : op T) : bool := match o with EvalC _ | EvalD _ => true | _ => false end.
Definition evaluates_jac (o : op T) : bool := match o with EvalJacC _ | EvalJacD _ | Finalize _ _ _ _ => true | _ => false end.
End Spec.
