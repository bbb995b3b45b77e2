(** Model of the C interface:
    - /repo/src/Interfaces/IpStdCInterface.cpp (all functions but the option setters,
      which hand their arguments to the options list of Opt*.v, and OpenIpoptOutputFile)
    - /repo/src/Interfaces/IpStdInterfaceTNLP.cpp (the TNLP object made by IpoptSolve)

    Memory is modelled with addresses. Arrays of the caller and arrays allocated by
    the interface live in two maps (a fresh allocation never returns an address that
    the caller holds). Reading or writing outside an array, use after delete[], a
    double delete[] and the use of a deleted problem are [Undef].
    What the solver does is a list of events: it may call the methods of the TNLP in
    any order, with any arguments; between any two events, in particular inside a
    callback, the caller may do what it likes with its own arrays and may call the
    functions of the interface.
    Simplifications: the numbers are only copied, so their type is a parameter, and
    [junk] stands for the contents of new Number[k]; callbacks are named by numbers
    and what they write for the solver goes straight through (the code passes the
    pointer on); the application's Initialize() is an input (its return status); a
    solve inside a callback of a solve and C++ exceptions other than IpoptException
    are not modelled; DBG_ASSERTs are off. *)
From Coq Require Import List Bool Arith ZArith.
Import ListNotations.
Set Implicit Arguments.

Inductive res (A : Type) := Ok (a : A) | Undef.
Arguments Undef {A}.
Definition bind {A B} (r : res A) (f : A -> res B) : res B :=
  match r with Ok a => f a | Undef => Undef end.
Notation "x <- r ; f" := (bind r (fun x => f)) (at level 61, r at next level, right associativity).

Definition is_some {A} (o : option A) : bool := match o with Some _ => true | None => false end.

(** ApplicationReturnStatus, IpReturnCodes_inc.h: the two values set here, and the
    code for success *)
Definition Solve_Succeeded : Z := 0%Z.
Definition Invalid_Problem_Definition : Z := (-11)%Z.
Definition Unrecoverable_Exception : Z := (-100)%Z.

Section M.
Variable V : Type.
Variable one junk : V.

(** an address: the caller's k-th array, or the interface's k-th array *)
Inductive addr := Cl (k : nat) | Lb (k : nat).
Record mem := Mem { cl : nat -> option (list V); lb : nat -> option (list V); nxt : nat }.
Definition upd (f : nat -> option (list V)) (a : nat) (v : option (list V)) : nat -> option (list V) :=
  fun b => if Nat.eqb b a then v else f b.

Definition look (m : mem) (p : addr) : option (list V) :=
  match p with Cl k => cl m k | Lb k => lb m k end.
Definition store (m : mem) (p : addr) (l : list V) : mem :=
  match p with
  | Cl k => Mem (upd (cl m) k (Some l)) (lb m) (nxt m)
  | Lb k => Mem (cl m) (upd (lb m) k (Some l)) (nxt m)
  end.
(** new Number[k] *)
Definition alloc (k : nat) (m : mem) : addr * mem :=
  (Lb (nxt m), Mem (cl m) (upd (lb m) (nxt m) (Some (repeat junk k))) (S (nxt m))).
(** delete[] p: nothing for NULL; only for what was allocated by the interface *)
Definition delete (p : option addr) (m : mem) : res mem :=
  match p with
  | None => Ok m
  | Some (Cl _) => Undef
  | Some (Lb k) => match lb m k with
                   | Some _ => Ok (Mem (cl m) (upd (lb m) k None) (nxt m))
                   | None => Undef
                   end
  end.
(** the k first numbers of an array *)
Definition read (k : nat) (p : option addr) (m : mem) : res (list V) :=
  match k, p with
  | 0, _ => Ok []
  | _, None => Undef
  | _, Some a => match look m a with
                 | Some l => if k <=? length l then Ok (firstn k l) else Undef
                 | None => Undef
                 end
  end.
(** the k first numbers of an array are replaced by the k first numbers of [src] *)
Definition write (k : nat) (src : list V) (p : option addr) (m : mem) : res mem :=
  match k, p with
  | 0, _ => Ok m
  | _, None => Undef
  | _, Some a => match look m a with
                 | Some l => if (k <=? length l) && (k <=? length src)
                             then Ok (store m a (firstn k src ++ skipn k l)) else Undef
                 | None => Undef
                 end
  end.
(** IpBlasCopy(k, src, 1, dst, 1), IpBlas.cpp:241-268 *)
Definition copy (k : nat) (src dst : option addr) (m : mem) : res mem :=
  v <- read k src m; write k v dst m.
(** the recurring  p = new Number[k]; IpBlasCopy(k, src, 1, p, 1) *)
Definition new_copy (k : nat) (src : addr) (m : mem) : res (option addr * mem) :=
  let (p, m1) := alloc k m in m2 <- copy k (Some src) (Some p) m1; Ok (Some p, m2).
(** the same if src is not NULL *)
Definition new_copy_opt (k : nat) (src : option addr) (m : mem) : res (option addr * mem) :=
  match src with None => Ok (None, m) | Some a => new_copy k a m end.

(** the arguments of CreateIpoptProblem, IpStdCInterface.cpp:38-53 *)
Record cargs := CArgs {
  a_n : Z; a_xL : option nat; a_xU : option nat; a_m : Z; a_gL : option nat; a_gU : option nat;
  a_nj : Z; a_nh : Z; a_style : Z;
  a_f : option nat; a_g : option nat; a_gf : option nat; a_jg : option nat; a_h : option nat }.

(** struct IpoptProblemInfo, IpStdCInterface.cpp:14-36 (app and tnlp are in [state]) *)
Record problem := Problem {
  p_n : nat; p_xL : option addr; p_xU : option addr; p_m : nat; p_gL : option addr; p_gU : option addr;
  p_nj : Z; p_nh : Z; p_style : Z;
  p_f : option nat; p_g : option nat; p_gf : option nat; p_jg : option nat; p_h : option nat;
  p_inter : option nat; p_obj : V; p_xs : option addr; p_gs : option addr }.

(** the test in CreateIpoptProblem, IpStdCInterface.cpp:56-57 *)
Definition bad_input (a : cargs) : bool :=
  (a_n a <? 1)%Z || (a_m a <? 0)%Z || negb (is_some (a_xL a)) || negb (is_some (a_xU a))
  || ((0 <? a_m a)%Z && (negb (is_some (a_gL a)) || negb (is_some (a_gU a))))
  || ((a_m a =? 0)%Z && negb (a_nj a =? 0)%Z)
  || ((0 <? a_m a)%Z && (a_nj a <? 1)%Z) || (a_nh a <? 0)%Z
  || negb (is_some (a_f a)) || negb (is_some (a_gf a))
  || ((0 <? a_m a)%Z && (negb (is_some (a_g a)) || negb (is_some (a_jg a)))).

Definition cptr (p : option nat) : option addr := option_map Cl p.

(** CreateIpoptProblem, IpStdCInterface.cpp:38-106; None: NULL *)
Definition create (a : cargs) (m : mem) : res (option problem * mem) :=
  if bad_input a then Ok (None, m) else
  let n := Z.to_nat (a_n a) in let k := Z.to_nat (a_m a) in
  r1 <- new_copy_opt n (cptr (a_xL a)) m;
  r2 <- new_copy_opt n (cptr (a_xU a)) (snd r1);
  r3 <- (if (0 <? a_m a)%Z then new_copy_opt k (cptr (a_gL a)) (snd r2) else Ok (None, snd r2));
  r4 <- (if (0 <? a_m a)%Z then new_copy_opt k (cptr (a_gU a)) (snd r3) else Ok (None, snd r3));
  Ok (Some (Problem n (fst r1) (fst r2) k (fst r3) (fst r4) (a_nj a) (a_nh a) (a_style a)
              (a_f a) (a_g a) (a_gf a) (a_jg a) (a_h a) None one None None), snd r4).

(** one of the two halves of SetIpoptProblemScaling, IpStdCInterface.cpp:169-195 *)
Definition set_scal (k : nat) (cur src : option addr) (m : mem) : res (option addr * mem) :=
  match src with
  | Some s =>
      match cur with
      | None => let (p, m1) := alloc k m in m2 <- copy k (Some s) (Some p) m1; Ok (Some p, m2)
      | Some c => m2 <- copy k (Some s) (Some c) m; Ok (Some c, m2)
      end
  | None => m1 <- delete cur m; Ok (None, m1)
  end.
Definition set_scaling (obj : V) (xs gs : option nat) (p : problem) (m : mem) : res (problem * mem) :=
  r1 <- set_scal (p_n p) (p_xs p) (cptr xs) m;
  r2 <- set_scal (p_m p) (p_gs p) (cptr gs) (snd r1);
  Ok (Problem (p_n p) (p_xL p) (p_xU p) (p_m p) (p_gL p) (p_gU p) (p_nj p) (p_nh p) (p_style p)
        (p_f p) (p_g p) (p_gf p) (p_jg p) (p_h p) (p_inter p) obj (fst r1) (fst r2), snd r2).
(** SetIntermediateCallback, 200-208 *)
Definition set_inter (cb : option nat) (p : problem) : problem :=
  Problem (p_n p) (p_xL p) (p_xU p) (p_m p) (p_gL p) (p_gU p) (p_nj p) (p_nh p) (p_style p)
        (p_f p) (p_g p) (p_gf p) (p_jg p) (p_h p) cb (p_obj p) (p_xs p) (p_gs p).

(** the arguments of IpoptSolve, IpStdCInterface.cpp:210-219 *)
Record sargs := SArgs {
  s_x : option nat; s_g : option nat; s_objv : option nat; s_mg : option nat; s_mL : option nat; s_mU : option nat;
  s_user : nat }.

(** the data members of StdInterfaceTNLP, IpStdInterfaceTNLP.hpp:238-306; t_ipdata
    tells whether ip_data_ and ip_cq_ are set *)
Record tnlp := Tnlp {
  t_n : nat; t_m : nat; t_xL : option addr; t_xU : option addr; t_gL : option addr; t_gU : option addr;
  t_nj : Z; t_nh : Z; t_style : Z;
  t_sx : option addr; t_slam : option addr; t_szL : option addr; t_szU : option addr;
  t_f : option nat; t_g : option nat; t_gf : option nat; t_jg : option nat; t_h : option nat; t_inter : option nat;
  t_user : nat; t_obj : V; t_xs : option addr; t_gs : option addr; t_ncx : option addr;
  t_ox : option addr; t_ozL : option addr; t_ozU : option addr; t_og : option addr; t_olam : option addr; t_oobj : option addr;
  t_ipdata : bool }.

(** the assertions of the constructor, IpStdInterfaceTNLP.cpp:78-92 *)
Definition tnlp_ok (p : problem) (sx : option addr) : bool :=
  (0 <? p_n p) && is_some (p_xL p) && is_some (p_xU p)
  && (is_some (p_gL p) || (p_m p =? 0)) && (is_some (p_gU p) || (p_m p =? 0))
  && (0 <=? p_nj p)%Z && (0 <=? p_nh p)%Z && ((p_style p =? 0)%Z || (p_style p =? 1)%Z)
  && is_some sx && is_some (p_f p) && is_some (p_g p) && is_some (p_gf p) && is_some (p_jg p) && is_some (p_h p).

(** ~StdInterfaceTNLP, IpStdInterfaceTNLP.cpp:108-113 *)
Definition destroy (t : tnlp) (m : mem) : res mem :=
  m1 <- delete (t_ncx t) m; m2 <- delete (t_xs t) m1; delete (t_gs t) m2.
Definition destroy_opt (t : option tnlp) (m : mem) : res mem :=
  match t with None => Ok m | Some t => destroy t m end.

(** what can be observed: the status of a solve, the answers of the TNLP to the
    solver, the calls of callbacks *)
Inductive obs :=
| OStatus (st : Z)
| ONlpInfo (n m : nat) (nj nh : Z) (fortran : bool)
| OBounds (xl xu gl gu : list V)
| OScaling (obj : V) (xs gs : option (list V))
| OStart (ok : bool) (x zL zU lam : option (list V))
| OCallF (cb : option nat) (x : option (list V)) (new_x : bool) (user : nat)
| OCallGradF (cb : option nat) (x : option (list V)) (new_x : bool) (user : nat)
| OCallG (cb : option nat) (x : option (list V)) (new_x : bool) (user : nat)
| OCallJac (cb : option nat) (x : option (list V)) (new_x : bool) (user : nat)
| OCallH (cb : option nat) (x : option (list V)) (new_x : bool) (objf : V) (lam : list V) (new_lam : bool) (user : nat)
| OCallInter (cb : nat) (args : list V) (user : nat)
| OReply (ok : bool)
| OAvail (ok : bool).

(** what happens *)
Inductive event :=
| CAlloc (k : nat) (l : list V)                 (** the caller gets a new array *)
| CFree (k : nat)                               (** the caller deletes an array of its own *)
| CPoke (k : nat) (l : list V)                  (** the caller overwrites an array of its own *)
| SetScaling (obj : V) (xs gs : option nat)
| SetInter (cb : option nat)
| Solve (a : sargs) (init : Z)                  (** IpoptSolve, until OptimizeTNLP starts the solver *)
| NlpInfo | Bounds | Scaling
| StartingPoint (init_x init_z init_lambda : bool)
| EvalF (x : list V) (new_x : bool) (ret : Z)   (** ret: what the callback returns *)
| EvalGradF (x : list V) (new_x : bool) (ret : Z)
| EvalG (x : list V) (new_x : bool) (ret : Z)
| EvalJac (x : list V) (new_x : bool) (ret : Z)
| EvalH (x : list V) (new_x : bool) (objf : V) (lam : option (list V)) (new_lam : bool) (ret : Z)
| CbWritesX (x : list V)                        (** a callback writes into the array x it was given *)
| InterBegin (args : list V)                    (** intermediate_callback, until the user's function is called *)
| InterEnd (ret : Z)                            (** the user's function returns *)
| Finalize (x zL zU g lam : list V) (objv : V)
| SolveEnd (st : option Z)                      (** OptimizeTNLP returns a status, or throws an IpoptException *)
| GetCurrent                                    (** GetIpoptCurrentIterate / GetIpoptCurrentViolations *)
| FreeProblem.

(** the problem (None after FreeIpoptProblem), tnlp (None: NULL), and the TNLP object
    which the application's TNLPAdapter still holds (IpIpoptApplication.cpp:
    nlp_adapter_, replaced by the next OptimizeTNLP) *)
Record state := St { sm : mem; sp : option problem; sr : option tnlp; sk : option tnlp }.

(** IpoptSolve up to the call of OptimizeTNLP, IpStdCInterface.cpp:221-271, with the
    constructor of StdInterfaceTNLP, IpStdInterfaceTNLP.cpp:13-106 *)
Definition solve (a : sargs) (init : Z) (p : problem) (k : option tnlp) (m : mem) : res (list obs * mem * option tnlp * option tnlp) :=
  if negb (init =? Solve_Succeeded)%Z then Ok ([OStatus init], m, None, k) else
  if negb (is_some (s_x a)) then Ok ([OStatus Invalid_Problem_Definition], m, None, k) else
  r1 <- new_copy_opt (p_n p) (cptr (s_x a)) m;
  r2 <- new_copy_opt (p_m p) (cptr (s_mg a)) (snd r1);
  r3 <- new_copy_opt (p_n p) (cptr (s_mL a)) (snd r2);
  r4 <- new_copy_opt (p_n p) (cptr (s_mU a)) (snd r3);
  if tnlp_ok p (fst r1) then
    r5 <- new_copy_opt (p_n p) (p_xs p) (snd r4);
    r6 <- new_copy_opt (p_m p) (p_gs p) (snd r5);
    m7 <- destroy_opt k (snd r6);
    Ok ([], m7,
        Some (Tnlp (p_n p) (p_m p) (p_xL p) (p_xU p) (p_gL p) (p_gU p) (p_nj p) (p_nh p) (p_style p)
          (fst r1) (fst r2) (fst r3) (fst r4)
          (p_f p) (p_g p) (p_gf p) (p_jg p) (p_h p) (p_inter p) (s_user a) (p_obj p)
          (fst r5) (fst r6) None
          (cptr (s_x a)) (cptr (s_mL a)) (cptr (s_mU a)) (cptr (s_g a)) (cptr (s_mg a)) (cptr (s_objv a)) false), None)
  else
    m5 <- delete (fst r1) (snd r4); m6 <- delete (fst r2) m5; m7 <- delete (fst r3) m6; m8 <- delete (fst r4) m7;
    Ok ([OStatus Invalid_Problem_Definition], m8, None, k).

(** the rest of IpoptSolve, IpStdCInterface.cpp:271-291 *)
Definition solve_end (st : option Z) (t : tnlp) (m : mem) : res (list obs * mem) :=
  m1 <- delete (t_sx t) m; m2 <- delete (t_slam t) m1; m3 <- delete (t_szL t) m2; m4 <- delete (t_szU t) m3;
  Ok ([OStatus (match st with Some s => s | None => Unrecoverable_Exception end)], m4).

(** FreeIpoptProblem, IpStdCInterface.cpp:108-122; app = NULL drops the last TNLP *)
Definition free_problem (p : problem) (k : option tnlp) (m : mem) : res mem :=
  m0 <- destroy_opt k m;
  m1 <- delete (p_xL p) m0; m2 <- delete (p_xU p) m1; m3 <- delete (p_gL p) m2; m4 <- delete (p_gU p) m3;
  m5 <- delete (p_xs p) m4; delete (p_gs p) m5.

Definition with_ncx (t : tnlp) (q : option addr) : tnlp :=
  Tnlp (t_n t) (t_m t) (t_xL t) (t_xU t) (t_gL t) (t_gU t) (t_nj t) (t_nh t) (t_style t)
    (t_sx t) (t_slam t) (t_szL t) (t_szU t) (t_f t) (t_g t) (t_gf t) (t_jg t) (t_h t) (t_inter t)
    (t_user t) (t_obj t) (t_xs t) (t_gs t) q
    (t_ox t) (t_ozL t) (t_ozU t) (t_og t) (t_olam t) (t_oobj t) (t_ipdata t).
Definition with_ipdata (t : tnlp) (b : bool) : tnlp :=
  Tnlp (t_n t) (t_m t) (t_xL t) (t_xU t) (t_gL t) (t_gU t) (t_nj t) (t_nh t) (t_style t)
    (t_sx t) (t_slam t) (t_szL t) (t_szU t) (t_f t) (t_g t) (t_gf t) (t_jg t) (t_h t) (t_inter t)
    (t_user t) (t_obj t) (t_xs t) (t_gs t) (t_ncx t)
    (t_ox t) (t_ozL t) (t_ozU t) (t_og t) (t_olam t) (t_oobj t) b.

(** apply_new_x, IpStdInterfaceTNLP.cpp:439-457 *)
Definition apply_new_x (new_x : bool) (x : list V) (t : tnlp) (m : mem) : res (tnlp * mem) :=
  if new_x then
    match t_ncx t with
    | None => let (q, m1) := alloc (t_n t) m in m2 <- write (t_n t) x (Some q) m1; Ok (with_ncx t (Some q), m2)
    | Some q => m2 <- write (t_n t) x (Some q) m; Ok (t, m2)
    end
  else Ok (t, m).
(** what a callback finds behind the pointer non_const_x_ *)
Definition seen_x (t : tnlp) (m : mem) : res (option (list V)) :=
  match t_ncx t with None => Ok None | Some q => v <- read (t_n t) (Some q) m; Ok (Some v) end.

(** StdInterfaceTNLP::get_bounds_info, 133-152 *)
Definition get_bounds (t : tnlp) (m : mem) : res obs :=
  a <- read (t_n t) (t_xL t) m; b <- read (t_n t) (t_xU t) m;
  c <- read (t_m t) (t_gL t) m; d <- read (t_m t) (t_gU t) m; Ok (OBounds a b c d).
Definition read_opt (k : nat) (p : option addr) (m : mem) : res (option (list V)) :=
  match p with None => Ok None | Some _ => v <- read k p m; Ok (Some v) end.
(** get_scaling_parameters, 154-191 *)
Definition get_scaling (t : tnlp) (m : mem) : res obs :=
  a <- read_opt (t_n t) (t_xs t) m; b <- read_opt (t_m t) (t_gs t) m; Ok (OScaling (t_obj t) a b).
(** get_starting_point, 193-249 *)
Definition get_start (ix iz il : bool) (t : tnlp) (m : mem) : res obs :=
  x <- (if ix then v <- read (t_n t) (t_sx t) m; Ok (Some v) else Ok None);
  zL <- (if iz then read_opt (t_n t) (t_szL t) m else Ok None);
  zU <- (if iz then read_opt (t_n t) (t_szU t) m else Ok None);
  lam <- (if il then read_opt (t_m t) (t_slam t) m else Ok None);
  Ok (OStart (negb (iz && negb (is_some (t_szL t))) && negb (iz && negb (is_some (t_szU t)))
              && negb (il && negb (is_some (t_slam t)))) x zL zU lam).

(** a write into an output array which is not NULL *)
Definition write_out (k : nat) (v : list V) (p : option addr) (m : mem) : res mem :=
  match p with None => Ok m | Some _ => write k v p m end.
(** finalize_solution, 392-437 *)
Definition finalize (x zL zU g lam : list V) (objv : V) (t : tnlp) (m : mem) : res mem :=
  m1 <- write_out (t_n t) x (t_ox t) m; m2 <- write_out (t_n t) zL (t_ozL t) m1; m3 <- write_out (t_n t) zU (t_ozU t) m2;
  m4 <- write_out (t_m t) g (t_og t) m3; m5 <- write_out (t_m t) lam (t_olam t) m4; write_out 1 [objv] (t_oobj t) m5.

(** the copy of lambda in eval_h, 344-352: a new array, filled only if lambda is not
    NULL, and deleted after the call *)
Definition lambda_copy (lam : option (list V)) (t : tnlp) (m : mem) : res (list V * mem) :=
  let (q, m1) := alloc (t_m t) m in
  m2 <- (match lam with Some l => write (t_m t) l (Some q) m1 | None => Ok m1 end);
  v <- read (t_m t) (Some q) m2;
  m3 <- delete (Some q) m2; Ok (v, m3).

Definition reply (ret : Z) : obs := OReply (negb (ret =? 0)%Z).

(** a method of the TNLP is called; the object must exist *)
Definition on_tnlp (s : state) (f : tnlp -> mem -> res (list obs * tnlp * mem)) : res (list obs * state) :=
  match sp s, sr s with
  | Some _, Some t => r <- f t (sm s); Ok (fst (fst r), St (snd r) (sp s) (Some (snd (fst r))) (sk s))
  | _, _ => Undef
  end.
(** an evaluation callback is called, 251-321 *)
Definition eval_cb (new_x : bool) (x : list V) (call : option (list V) -> tnlp -> obs) (ret : Z) (t : tnlp) (m : mem)
  : res (list obs * tnlp * mem) :=
  r <- apply_new_x new_x x t m; v <- seen_x (fst r) (snd r);
  Ok ([call v (fst r); reply ret], fst r, snd r).

Definition step (s : state) (e : event) : res (list obs * state) :=
  let m := sm s in
  match e with
  | CAlloc k l => match cl m k with
                  | None => Ok ([], St (Mem (upd (cl m) k (Some l)) (lb m) (nxt m)) (sp s) (sr s) (sk s))
                  | Some _ => Undef end
  | CFree k => match cl m k with
               | Some _ => Ok ([], St (Mem (upd (cl m) k None) (lb m) (nxt m)) (sp s) (sr s) (sk s))
               | None => Undef end
  | CPoke k l => match cl m k with
                 | Some l0 => if length l =? length l0 then Ok ([], St (store m (Cl k) l) (sp s) (sr s) (sk s)) else Undef
                 | None => Undef end
  | SetScaling obj xs gs =>
      match sp s with
      | Some p => r <- set_scaling obj xs gs p m; Ok ([OReply true], St (snd r) (Some (fst r)) (sr s) (sk s))
      | None => Undef end
  | SetInter cb =>
      match sp s with Some p => Ok ([OReply true], St m (Some (set_inter cb p)) (sr s) (sk s)) | None => Undef end
  | Solve a init =>
      match sp s, sr s with
      | Some p, None => r <- solve a init p (sk s) m;
                        let '(o, m', t, k) := r in Ok (o, St m' (sp s) t k)
      | _, _ => Undef end
  (** get_nlp_info, 115-131 *)
  | NlpInfo => on_tnlp s (fun t m => Ok ([ONlpInfo (t_n t) (t_m t) (t_nj t) (t_nh t) (negb (t_style t =? 0)%Z)], t, m))
  | Bounds => on_tnlp s (fun t m => o <- get_bounds t m; Ok ([o], t, m))
  | Scaling => on_tnlp s (fun t m => o <- get_scaling t m; Ok ([o], t, m))
  | StartingPoint ix iz il => on_tnlp s (fun t m => o <- get_start ix iz il t m; Ok ([o], t, m))
  | EvalF x nx ret => on_tnlp s (eval_cb nx x (fun v t => OCallF (t_f t) v nx (t_user t)) ret)
  | EvalGradF x nx ret => on_tnlp s (eval_cb nx x (fun v t => OCallGradF (t_gf t) v nx (t_user t)) ret)
  | EvalG x nx ret => on_tnlp s (eval_cb nx x (fun v t => OCallG (t_g t) v nx (t_user t)) ret)
  | EvalJac x nx ret => on_tnlp s (eval_cb nx x (fun v t => OCallJac (t_jg t) v nx (t_user t)) ret)
  | EvalH x nx objf lam nl ret =>
      on_tnlp s (fun t m => r <- apply_new_x nx x t m; v <- seen_x (fst r) (snd r);
                            l <- lambda_copy lam (fst r) (snd r);
                            Ok ([OCallH (t_h (fst r)) v nx objf (fst l) nl (t_user (fst r)); reply ret], fst r, snd l))
  | CbWritesX x =>
      on_tnlp s (fun t m => match t_ncx t with
                            | Some q => m' <- write (t_n t) x (Some q) m; Ok ([], t, m')
                            | None => Undef end)
  (** intermediate_callback, 357-390 *)
  | InterBegin args =>
      on_tnlp s (fun t m => match t_inter t with
                            | None => Ok ([OReply true], t, m)
                            | Some cb => Ok ([OCallInter cb args (t_user t)], with_ipdata t true, m) end)
  | InterEnd ret =>
      on_tnlp s (fun t m => if t_ipdata t then Ok ([reply ret], with_ipdata t false, m) else Undef)
  | Finalize x zL zU g lam objv => on_tnlp s (fun t m => m' <- finalize x zL zU g lam objv t m; Ok ([], t, m'))
  | SolveEnd st =>
      match sp s, sr s with
      | Some p, Some t => r <- solve_end st t m; Ok (fst r, St (snd r) (sp s) None (Some t))
      | _, _ => Undef end
  (** GetIpoptCurrentIterate, GetIpoptCurrentViolations, IpStdCInterface.cpp:293-333 *)
  | GetCurrent => match sp s with
                  | Some _ => Ok ([OAvail (match sr s with Some t => t_ipdata t | None => false end)], s)
                  | None => Undef end
  | FreeProblem =>
      match sp s, sr s with
      | Some p, None => m' <- free_problem p (sk s) m; Ok ([], St m' None None None)
      | _, _ => Undef end
  end.

Fixpoint run (s : state) (es : list event) : res (list obs * state) :=
  match es with
  | [] => Ok ([], s)
  | e :: es => r <- step s e; r' <- run (snd r) es; Ok (fst r ++ fst r', snd r')
  end.

(** CreateIpoptProblem in a program whose arrays are [c] *)
Definition start (c : nat -> option (list V)) (a : cargs) : res (option state) :=
  r <- create a (Mem c (fun _ => None) 0);
  Ok (match fst r with None => None | Some p => Some (St (snd r) (Some p) None None) end).
End M.
