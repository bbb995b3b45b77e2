(** Model of the evaluation side of TNLPAdapter
    (src/Interfaces/IpTNLPAdapter.cpp 1711-1995, 2094-2270, 2653-2920): which
    user routines are called, at which point, with which new_x flag, and what is
    returned. Polymorphic in the number type.

    The user's routines are functions of the point (deterministic) that may
    fail; also a failing routine may write into the output array. Vectors are
    named by their tag; [X], [YC], [YD] give the content belonging to a tag
    (a tag never stands for two contents: C03). Memory that is not initialised
    is an arbitrary list.
    Simplifications: the column lists of the finite-difference Jacobian
    (findiff_jac_ia_/ja_/postriplet_, made by the converter of C13) are
    [fd_cols]; meta data and printing in FinalizeSolution are left out. *)
From Coq Require Import List Bool Arith ZArith.
From Verif Require Import VecModel ExpModel AdModel.
Import ListNotations.

(** the calls the user's object sees, with the values of their arguments *)
Inductive call (T : Type) :=
| CallF (x : list T) (new_x : bool)
| CallGrad (x : list T) (new_x : bool)
| CallG (x : list T) (new_x : bool)
| CallJac (x : list T) (new_x : bool)
| CallH (x : list T) (new_x : bool) (obj : T) (lam : list T) (new_lam : bool).
Arguments CallF {T}. Arguments CallGrad {T}. Arguments CallG {T}. Arguments CallJac {T}. Arguments CallH {T}.

(** the user's object: success flag and what is written to the output *)
Record user (T : Type) := USER {
  u_f : list T -> bool * T;
  u_grad : list T -> bool * list T;
  u_g : list T -> bool * list T;
  u_jac : list T -> bool * list T;
  u_h : list T -> T -> list T -> bool * list T }.
Arguments USER {T}. Arguments u_f {T}. Arguments u_grad {T}. Arguments u_g {T}. Arguments u_jac {T}. Arguments u_h {T}.

(** the calls made on the adapter by the algorithm; points are tags *)
Inductive op (T : Type) :=
| EvalF (x : Z) | EvalGrad (x : Z) | EvalC (x : Z) | EvalD (x : Z) | EvalJacC (x : Z) | EvalJacD (x : Z)
| EvalH (x : Z) (obj : T) (yc yd : Z)
| Finalize (solved : bool) (x yc yd : Z).
Arguments EvalF {T}. Arguments EvalGrad {T}. Arguments EvalC {T}. Arguments EvalD {T}. Arguments EvalJacC {T}.
Arguments EvalJacD {T}. Arguments EvalH {T}. Arguments Finalize {T}.

Section Model.
Context {T : Type} (O : nops T) (U : user T) (a : adapter) (rhs : list T).
(** options gradient_approximation, jacobian_approximation, findiff_perturbation;
    findiff_x_l_, findiff_x_u_; the user's Jacobian structure (0-based) *)
Variables (fd_grad fd_jac : bool) (pert : T) (fxl fxu : list T) (jtrip : list (nat * nat)).
Variables (X YC YD : Z -> xvec (T:=T)).
Definition opts_dimd : nat := length (a_d a).

(** IpTNLPAdapter.hpp 540-570: full_x_, full_lambda_, full_g_, jac_g_ and the tags;
    ghost: [log], the user calls so far, latest first *)
Record st := ST { full_x : list T; full_lam : list T; full_g : list T; jac_g : list T;
  tx : Z; tyc : Z; tyd : Z; tg : Z; tj : Z; log : list (call T) }.
(** lines 53-57: the constructor *)
Definition init (x lam g j : list T) : st := ST x lam g j 0 0 0 0 0 [].
Definition note (c : call T) (s : st) : st :=
  ST (full_x s) (full_lam s) (full_g s) (jac_g s) (tx s) (tyc s) (tyd s) (tg s) (tj s) (c :: log s).
Definition set_g (g : list T) (s : st) : st :=
  ST (full_x s) (full_lam s) g (jac_g s) (tx s) (tyc s) (tyd s) (tg s) (tj s) (log s).
Definition set_jac (j : list T) (s : st) : st :=
  ST (full_x s) (full_lam s) (full_g s) j (tx s) (tyc s) (tyd s) (tg s) (tj s) (log s).
Definition set_tg (t : Z) (s : st) : st :=
  ST (full_x s) (full_lam s) (full_g s) (jac_g s) (tx s) (tyc s) (tyd s) t (tj s) (log s).
Definition set_tj (t : Z) (s : st) : st :=
  ST (full_x s) (full_lam s) (full_g s) (jac_g s) (tx s) (tyc s) (tyd s) (tg s) t (log s).

(** lines 2798-2812 *)
Definition update_x (t : Z) (s : st) : st * bool :=
  if (t =? tx s)%Z then (s, false)
  else (ST (resort_x O a true (full_x s) (X t)) (full_lam s) (full_g s) (jac_g s) t (tyc s) (tyd s) (tg s) (tj s) (log s), true).
(** lines 2814-2830 *)
Definition update_lam (c d : Z) (s : st) : st * bool :=
  if (c =? tyc s)%Z && (d =? tyd s)%Z then (s, false)
  else (ST (full_x s) (resort_g O a false rhs (YC c) (YD d) opts_dimd (full_lam s)) (full_g s) (jac_g s) (tx s) c d (tg s) (tj s) (log s), true).

(** lines 2832-2852: on failure the tag of the JACOBIAN is reset *)
Definition internal_g (new_x : bool) (s : st) : st * bool :=
  if (tg s =? tx s)%Z then (s, true)
  else
    let r := u_g U (full_x s) in
    let s := note (CallG (full_x s) new_x) (set_g (snd r) (set_tg (tx s) s)) in
    if fst r then (s, true) else (set_tj 0 s, false).

(** the step of a finite difference: lines 1782-1791 and 2885-2894. Returns
    this_perturbation and the perturbed component. *)
Definition fd_step (x : list T) (i : nat) : T * T :=
  let d := tmul O pert (tmax O (t1 O) (tabs O (at_ O x i))) in
  let p := tadd O (at_ O x i) d in
  if tlt O (at_ O fxu i) p then (topp O d, tadd O (at_ O x i) (topp O d)) else (d, p).
Definition fd_free (i : nat) : bool := tlt O (at_ O fxl i) (at_ O fxu i).
(** lines 1775-1808: the loop over the components of g_f; [i] counts *)
Fixpoint fd_grad_loop (k i : nat) (f : T) (vals : list T) (s : st) : st * (bool * list T) :=
  match k with
  | 0%nat => (s, (true, vals))
  | S k =>
      let ivar := full_index a i in
      if fd_free ivar then
        let '(d, p) := fd_step (full_x s) ivar in
        let xp := upd ivar p (full_x s) in
        let r := u_f U xp in
        let s := note (CallF xp true) s in
        if fst r then fd_grad_loop k (S i) f (upd i (tdiv O (tsub O (snd r) f) d) vals) s
        else (s, (false, vals))
      else fd_grad_loop k (S i) f vals s
  end.
(** the entries of column [ivar]: (icon, ipos) *)
Definition fd_cols (ivar : nat) : list (nat * nat) :=
  map (fun e => (fst (fst e), snd e))
    (filter (fun e => Nat.eqb (snd (fst e)) ivar) (combine jtrip (seq 0 (length jtrip)))).
(** lines 2880-2910 *)
Fixpoint fd_jac_loop (k i : nat) (s : st) : st * bool :=
  match k with
  | 0%nat => (s, true)
  | S k =>
      if fd_free i then
        let '(d, p) := fd_step (full_x s) i in
        let xp := upd i p (full_x s) in
        let r := u_g U xp in
        let s := note (CallG xp true) s in
        if fst r then
          fd_jac_loop k (S i)
            (set_jac (fold_left (fun j e => upd (snd e) (tdiv O (tsub O (at_ O (snd r) (fst e)) (at_ O (full_g s) (fst e))) d) j) (fd_cols i) (jac_g s)) s)
        else (s, false)
      else fd_jac_loop k (S i) s
  end.
(** lines 2854-2919 *)
Definition internal_jac (new_x : bool) (s : st) : st * bool :=
  if (tj s =? tx s)%Z then (s, true)
  else
    let s := set_tj (tx s) s in
    let '(s, ok) :=
      if fd_jac then
        let '(s, ok) := internal_g new_x s in
        if ok then fd_jac_loop (a_n a) 0 s else (s, false)
      else let r := u_jac U (full_x s) in (note (CallJac (full_x s) new_x) (set_jac (snd r) s), fst r) in
    if ok then (s, true) else (set_tj 0 s, false).

(** lines 1711-1722; results are (return value, output array) *)
Definition eval_f (t : Z) (s : st) : st * (bool * list T) :=
  let '(s, new_x) := update_x t s in
  let r := u_f U (full_x s) in (note (CallF (full_x s) new_x) s, (fst r, [snd r])).
(** lines 1724-1809; [junk]: content of the freshly allocated output *)
Definition eval_grad (t : Z) (junk : list T) (s : st) : st * (bool * list T) :=
  let '(s, new_x) := update_x t s in
  if fd_grad then
    let r := u_f U (full_x s) in
    let s := note (CallF (full_x s) new_x) s in
    if fst r then fd_grad_loop (a_nvar a) 0 (snd r) junk s else (s, (false, junk))
  else
    let r := u_grad U (full_x s) in
    (note (CallGrad (full_x s) new_x) s, (fst r, grad_values O a (snd r))).
(** lines 1811-1845, 1879-1904 *)
Definition eval_c (t : Z) (s : st) : st * (bool * list T) :=
  let '(s, new_x) := update_x t s in
  let '(s, ok) := internal_g new_x s in
  (s, if ok then (true, c_values O a rhs (full_g s) (full_x s)) else (false, [])).
Definition eval_d (t : Z) (s : st) : st * (bool * list T) :=
  let '(s, new_x) := update_x t s in
  let '(s, ok) := internal_g new_x s in
  (s, if ok then (true, d_values' O a (full_g s)) else (false, [])).
(** lines 1847-1877, 1906-1931 *)
Definition eval_jac_c (t : Z) (s : st) : st * (bool * list T) :=
  let '(s, new_x) := update_x t s in
  let '(s, ok) := internal_jac new_x s in
  (s, if ok then (true, jac_c_values O a (jac_g s)) else (false, [])).
Definition eval_jac_d (t : Z) (s : st) : st * (bool * list T) :=
  let '(s, new_x) := update_x t s in
  let '(s, ok) := internal_jac new_x s in
  (s, if ok then (true, jac_d_values O a (jac_g s)) else (false, [])).
(** lines 1933-1995; [asum] is Vector::Asum of the multiplier vectors *)
Variables (asum_c asum_d : Z -> T).
Definition eval_h (t : Z) (obj : T) (c d : Z) (s : st) : st * (bool * list T) :=
  if teq O obj (t0 O) && teq O (asum_c c) (t0 O) && teq O (asum_d d) (t0 O)
  then (s, (true, repeat (t0 O) (length (a_h a))))
  else
    let '(s, new_x) := update_x t s in
    let '(s, new_y) := update_lam c d s in
    let r := u_h U (full_x s) obj (full_lam s) in
    (note (CallH (full_x s) new_x obj (full_lam s) new_y) s, (fst r, h_values O a (snd r))).

(** lines 2094-2270: the update of the local copies and the user calls of
    ResortBoundMultipliers (2711-2735). [solved]: the status is one of those for
    which bound multipliers are computed. The output is x as given to the user;
    multipliers are in [AdModel.bound_mult_parameter]. *)
Definition finalize (solved : bool) (t c d : Z) (s : st) : st * (bool * list T) :=
  let '(s, _) := update_x t s in
  let '(s, _) := update_lam c d s in
  let s := ST (resort_x O a true (full_x s) (X t)) (resort_g O a false rhs (YC c) (YD d) opts_dimd (full_lam s))
              (full_g s) (jac_g s) (tx s) (tyc s) (tyd s) (tg s) (tj s) (log s) in
  if solved && negb (Nat.eqb (length (a_fix a)) 0) && is_parameter (a_t a) then
    let '(s, new_x) := update_x t s in
    let r := u_grad U (full_x s) in
    let s := note (CallGrad (full_x s) new_x) s in
    if fst r then
      match a_jfix a with
      | [] => (s, (true, full_x s))
      | _ => let '(s, ok) := internal_jac false s in (s, (true, full_x s))
      end
    else (s, (true, full_x s))
  else (s, (true, full_x s)).

Definition step (junk : list T) (o : op T) (s : st) : st * (bool * list T) :=
  match o with
  | EvalF t => eval_f t s | EvalGrad t => eval_grad t junk s
  | EvalC t => eval_c t s | EvalD t => eval_d t s
  | EvalJacC t => eval_jac_c t s | EvalJacD t => eval_jac_d t s
  | EvalH t obj c d => eval_h t obj c d s
  | Finalize b t c d => finalize b t c d s
  end.
(** a history of calls, with the content of the fresh output for each *)
Fixpoint run (os : list (list T * op T)) (s : st) : st :=
  match os with [] => s | (junk, o) :: os => run os (fst (step junk o s)) end.
End Model.
