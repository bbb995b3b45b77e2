(** Model of src/Algorithm/LinearSolvers/IpMa27TSolverInterface.cpp: the object between TSymLinearSolver and the four Fortran
    routines of MA27. The routines are operations [kernel] on abstract data. Work space sizes are natural numbers; the choice of
    a new size (ComputeMemIncrease) is a function [mem]. bad_alloc, overflow of Index, timing and output are left out. An
    INVALID_WARMSTART exception of Initialize is the answer false, one of InitializeStructure the answer FATAL_ERROR. *)
From Coq Require Import Reals List Arith Bool.
From Verif Require CsrModel.
From Verif Require Import PdModel TsModel.
Import ListNotations.
Open Scope R_scope.

(** INFO(1) of ma27b: 0; -3 and -4 with the size asked for; -5; 3 with the rank; anything else *)
Inductive iflag := F_ok | F_liw (n : nat) | F_la (n : nat) | F_sing | F_def (rank : nat) | F_err.
Record info := Info { i_flag : iflag; i_cmpr : nat; i_cmpi : nat; i_neg : nat }.
Record kernel (S F : Type) := Kernel {
  k_a : nat -> nat -> CsrModel.arr -> CsrModel.arr -> option (S * nat * nat);    (* ma27a: symbolic factorization, recommended sizes; None: iflag <> 0 *)
  k_b : S -> CsrModel.arr -> CsrModel.arr -> R -> nat -> nat -> list R -> info * F;   (* ma27b with pivot tolerance, la, liw, the values in a_ *)
  k_c : F -> list R -> list R;                                                   (* ma27c for one right hand side *)
  k_junk : F -> list R                                                           (* the factors in a_ read as values *)
}.
Arguments k_a {S F}. Arguments k_b {S F}. Arguments k_c {S F}. Arguments k_junk {S F}.
(** what a_ holds: not written, values of a matrix, factors *)
Inductive cont (F : Type) := Junk | Vals (l : list R) | Fac (x : F).
Arguments Junk {F}. Arguments Vals {F}. Arguments Fac {F}.

(** IpMa27TSolverInterface.hpp 150-260; [a_len]: the number of elements a_ was allocated with;
    [a_sym]: the symbolic factorization (ikeep_, nsteps_), and the arrays it was computed for (these only for the statements) *)
Record ma27 (S F : Type) := MA {
  a_cont : cont F; a_len : nat; a_la : nat; a_liw : nat; a_dim : nat; a_nz : nat; a_sym : option (S * CsrModel.arr * CsrModel.arr); a_init : bool; a_pivch : bool; a_refac : bool;
  a_lainc : bool; a_liwinc : bool; a_piv : R; a_neg : nat; a_warm : bool
}.
Arguments MA {S F}. Arguments a_cont {S F}. Arguments a_len {S F}. Arguments a_la {S F}. Arguments a_liw {S F}. Arguments a_dim {S F}. Arguments a_nz {S F}.
Arguments a_sym {S F}. Arguments a_init {S F}. Arguments a_pivch {S F}. Arguments a_refac {S F}. Arguments a_lainc {S F}. Arguments a_liwinc {S F}.
Arguments a_piv {S F}. Arguments a_neg {S F}. Arguments a_warm {S F}.

Section Ma27.
Context {S F : Type}.
Variable K : kernel S F.
Variable mem : nat -> nat -> nat -> nat.    (* ComputeMemIncrease: old size, number it is computed from, minimum *)
Variable ub : ma27 S F -> status * ma27 S F.    (* undefined behaviour: any effect *)
Variables (piv0 pivmax : R) (skip_inertia ignore_sing : bool).   (* options *)
Notation ma27 := (ma27 S F).
Definition set_a (w : ma27) (c : cont F) (len : nat) : ma27 :=
  MA c len (a_la w) (a_liw w) (a_dim w) (a_nz w) (a_sym w) (a_init w) (a_pivch w) (a_refac w) (a_lainc w) (a_liwinc w) (a_piv w) (a_neg w) (a_warm w).
Definition set_flags (w : ma27) (pivch refac : bool) : ma27 :=
  MA (a_cont w) (a_len w) (a_la w) (a_liw w) (a_dim w) (a_nz w) (a_sym w) (a_init w) pivch refac (a_lainc w) (a_liwinc w) (a_piv w) (a_neg w) (a_warm w).

(** the constructor, 55-72 *)
Definition new_ma27 : ma27 := MA Junk 0 0 0 0 0 None false false false false false 0 0 false.
(** InitializeImpl 149-252 (235-249: the private data) *)
Definition ma_init (warm : bool) (w : ma27) : bool * ma27 :=
  let w' d nz := MA (a_cont w) (a_len w) (a_la w) (a_liw w) d nz (a_sym w) false false false false false piv0 (a_neg w) warm in
  if negb warm then (true, w' 0%nat 0%nat)
  else ((0 <? a_dim w)%nat && (0 <? a_nz w)%nat, w' (a_dim w) (a_nz w)).
(** GetValuesArrayPtr 306-322, and writing values there *)
Definition ma_get_array (w : ma27) : ma27 := if a_lainc w then set_a w Junk (a_nz w) else w.
Definition ma_put (v : list R) (w : ma27) : ma27 := 
  let w := ma_get_array w in if (a_len w <? length v)%nat then snd (ub w) else set_a w (Vals v) (a_len w).
Definition ma_read (nz : nat) (w : ma27) : list R :=
  match a_cont w with Vals v => firstn nz (v ++ repeat 0 nz) | _ => repeat 0 nz end.
(** InitializeStructure 325-356 with SymbolicFactorization 358-472 *)
Definition ma_struct (d nz : nat) (ia ja : CsrModel.arr) (w : ma27) : status * ma27 :=
  if negb (a_warm w) then
    let w := MA (a_cont w) (a_len w) (a_la w) (a_liw w) d nz (a_sym w) (a_init w) (a_pivch w) (a_refac w) (a_lainc w) (a_liwinc w) (a_piv w) (a_neg w) (a_warm w) in
    match k_a K d nz ia ja with
    | None => (FATAL_ERROR, w)
    | Some (sy, rla, rliw) =>
        let la := mem (a_la w) rla nz in
        (SUCCESS, MA Junk la la (mem (a_liw w) rliw 0) d nz (Some (sy, ia, ja)) true (a_pivch w) (a_refac w) (a_lainc w) (a_liwinc w) (a_piv w) (a_neg w) (a_warm w))
    end
  else if (a_dim w =? d)%nat && (a_nz w =? nz)%nat then
    (SUCCESS, MA (a_cont w) (a_len w) (a_la w) (a_liw w) (a_dim w) (a_nz w) (a_sym w) true (a_pivch w) (a_refac w) (a_lainc w) (a_liwinc w) (a_piv w) (a_neg w) (a_warm w))
  else (FATAL_ERROR, w).
(** Factorization 475-669 *)
Definition ma_factorize (ia ja : CsrModel.arr) (chk : bool) (n : nat) (w : ma27) : status * ma27 :=
  let la := if a_lainc w then mem (a_la w) (a_la w) 0 else a_la w in
  let len := if a_lainc w then la else a_len w in
  let c := if a_lainc w then match a_cont w with Vals v => Vals v | _ => Junk end else a_cont w in    (* 503-506: the first nonzeros_ elements are kept *)
  let liw := if a_liwinc w then mem (a_liw w) (a_liw w) 0 else a_liw w in
  let vals := match c with Vals v => v | Fac x => k_junk K x | Junk => [] end in
  if (len <? la)%nat then ub w else    (* ma27b works on la_ elements *)
  match a_sym w with
  | None => (FATAL_ERROR, w)
  | Some (sy, _, _) =>
      let (inf, x) := k_b K sy ia ja (a_piv w) la liw vals in
      let w' c len la liw lainc liwinc neg :=
        MA c len la liw (a_dim w) (a_nz w) (a_sym w) (a_init w) (a_pivch w) (a_refac w) lainc liwinc (a_piv w) neg (a_warm w) in
      match i_flag inf with
      | F_liw m => let la2 := mem la la 0 in (CALL_AGAIN, w' Junk la2 la2 (mem liw m 0) false false (i_neg inf))
      | F_la m => let la2 := mem la m 0 in (CALL_AGAIN, w' Junk la2 la2 (mem liw liw 0) false false (i_neg inf))
      | F_sing => (SINGULAR, w' (Fac x) len la liw false false (i_neg inf))
      | F_err => (FATAL_ERROR, w' (Fac x) len la liw false false (i_neg inf))
      | fl =>
          let neg := match fl with F_def rank => (i_neg inf + (a_dim w - rank))%nat | _ => i_neg inf end in
          if (match fl with F_def _ => negb ignore_sing | _ => false end) then (SINGULAR, w' (Fac x) len la liw false false neg) else
          let w2 := w' (Fac x) len la liw (10 <=? i_cmpr inf)%nat (10 <=? i_cmpi inf)%nat neg in
          if negb skip_inertia && chk && negb (n =? neg)%nat then (WRONG_INERTIA, w2) else (SUCCESS, w2)
      end
  end.
(** Backsolve 672-708 *)
Definition ma_backsolve (nrhs : nat) (rhs : list R) (w : ma27) : list R :=
  match a_cont w with
  | Fac x => flat_map (fun k => k_c K x (slice (a_dim w) k rhs)) (seq 0 nrhs)
  | _ => rhs
  end.
(** MultiSolve 255-304 *)
Definition ma_solve (new : bool) (ia ja : CsrModel.arr) (nrhs : nat) (rhs : list R) (chk : bool) (n : nat) (w : ma27) : status * list R * ma27 :=
  let go w :=
    if new || a_refac w then
      let (r, w) := ma_factorize ia ja chk n w in
      match r with
      | SUCCESS => let w := set_flags w (a_pivch w) false in (SUCCESS, ma_backsolve nrhs rhs w, w)
      | _ => (r, rhs, w)
      end
    else (SUCCESS, ma_backsolve nrhs rhs w, w) in
  if a_pivch w then
    if negb new then (CALL_AGAIN, rhs, set_flags w false true) else go (set_flags w false (a_refac w))
  else go w.
(** IncreaseQuality 718-737 *)
Definition ma_incq (w : ma27) : bool * ma27 :=
  if Req_EM_T (a_piv w) pivmax then (false, w)
  else (true, MA (a_cont w) (a_len w) (a_la w) (a_liw w) (a_dim w) (a_nz w) (a_sym w) (a_init w) true (a_refac w) (a_lainc w) (a_liwinc w)
              (Rmin pivmax (Rpower (a_piv w) (3 / 4))) (a_neg w) (a_warm w)).

(** the environment of TSymLinearSolver with this solver and a scaling method [sc] without own state *)
Definition ma27_env (scinit : bool) (sc : nat -> list nat -> list nat -> list R -> bool * list R) : env ma27 :=
  Env ma27 ma_init (fun _ => TripF) ma_struct ma_read ma_put ma_solve ma_incq
    (fun w => (scinit, w)) (fun d ir jc v w => (fst (sc d ir jc v), snd (sc d ir jc v), w)).
End Ma27.
