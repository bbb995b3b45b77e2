(** What a user of the C interface relies on: a problem is a VALUE. This file defines,
    without any pointer owned by the library, what should be seen of a problem made
    from given data, under the events of CIModel.v. *)
From Coq Require Import List Bool Arith ZArith.
From Verif Require Import CIModel.
Import ListNotations.
Set Implicit Arguments.

(** the arguments that CreateIpoptProblem accepts *)
Definition valid_args (a : cargs) : Prop :=
  (1 <= a_n a)%Z /\ (0 <= a_m a)%Z /\ a_xL a <> None /\ a_xU a <> None /\
  ((0 < a_m a)%Z -> a_gL a <> None /\ a_gU a <> None /\ (1 <= a_nj a)%Z /\ a_g a <> None /\ a_jg a <> None) /\
  (a_m a = 0%Z -> a_nj a = 0%Z) /\ (0 <= a_nh a)%Z /\ a_f a <> None /\ a_gf a <> None.

Section S.
Variable V : Type.
Variable one junk : V.
Notation cmap := (nat -> option (list V)).

(** an array of the caller has at least k numbers; its k first numbers *)
Definition array (c : cmap) (k : nat) (p : option nat) : option (list V) :=
  match p with
  | None => None
  | Some a => match c a with
              | Some l => if k <=? length l then Some (firstn k l) else None
              | None => None end
  end.
(** an array argument that may be NULL: it is not given, or what it holds *)
Definition opt_array (c : cmap) (k : nat) (p : option nat) : res (option (list V)) :=
  match p with
  | None => Ok None
  | Some a => if k =? 0 then Ok (Some []) else
      match array c k (Some a) with Some v => Ok (Some v) | None => Undef end
  end.

(** the data of a problem *)
Record vprob := VProb {
  v_n : nat; v_m : nat; v_xL : list V; v_xU : list V; v_gL : list V; v_gU : list V;
  v_nj : Z; v_nh : Z; v_style : Z;
  v_f : option nat; v_g : option nat; v_gf : option nat; v_jg : option nat; v_h : option nat;
  v_inter : option nat; v_obj : V; v_xs : option (list V); v_gs : option (list V) }.
(** a solve in progress: the data at its start; [r_point] is the array handed to the
    callbacks; [r_out] the caller's output arrays *)
Record vrun := VRun {
  r_prob : vprob; r_x : list V; r_lam : option (list V); r_zL : option (list V); r_zU : option (list V);
  r_out : sargs; r_point : option (list V); r_incb : bool }.
Record vstate := VSt { vc : cmap; vp : option vprob; vr : option vrun }.

(** the problem can be solved: the callbacks are all there, and the index style is
    0 or 1 *)
Definition solvable (p : vprob) : bool :=
  is_some (v_g p) && is_some (v_jg p) && is_some (v_h p) && ((v_style p =? 0)%Z || (v_style p =? 1)%Z).

(** the caller's array p gets v in its k first places (nothing if p is NULL) *)
Definition put (k : nat) (v : list V) (p : option nat) (c : cmap) : res cmap :=
  match p with
  | None => Ok c
  | Some a => if k =? 0 then Ok c else
      match c a with
      | Some l => if (k <=? length l) && (k <=? length v) then Ok (upd c a (Some (firstn k v ++ skipn k l))) else Undef
      | None => Undef end
  end.

Definition on_run (s : vstate) (f : vrun -> res (list (obs V) * vrun)) : res (list (obs V) * vstate) :=
  match vp s, vr s with
  | Some _, Some r => x <- f r; Ok (fst x, VSt (vc s) (vp s) (Some (snd x)))
  | _, _ => Undef end.
Definition with_point (r : vrun) (q : option (list V)) : vrun :=
  VRun (r_prob r) (r_x r) (r_lam r) (r_zL r) (r_zU r) (r_out r) q (r_incb r).
Definition with_incb (r : vrun) (b : bool) : vrun :=
  VRun (r_prob r) (r_x r) (r_lam r) (r_zL r) (r_zU r) (r_out r) (r_point r) b.
(** What the solver is told: a callback that answers 0 has failed, every other answer is a success
    (IpStdCInterface.h: "should return false if there was a problem"). *)
Definition answered (ret : Z) : obs V := OReply V (match ret with 0%Z => false | _ => true end).

(** the point for the callbacks after a call with flag new_x and point x *)
Definition point_after (nx : bool) (x : list V) (r : vrun) : res (option (list V)) :=
  if nx then (if v_n (r_prob r) <=? length x then Ok (Some (firstn (v_n (r_prob r)) x)) else Undef)
  else Ok (r_point r).
Definition veval (nx : bool) (x : list V) (call : option (list V) -> obs V) (ret : Z) (r : vrun) : res (list (obs V) * vrun) :=
  q <- point_after nx x r; Ok ([call q; answered ret], with_point r q).

Definition vstep (s : vstate) (e : event V) : res (list (obs V) * vstate) :=
  match e with
  | CAlloc k l => match vc s k with None => Ok ([], VSt (upd (vc s) k (Some l)) (vp s) (vr s)) | Some _ => Undef end
  | CFree _ k => match vc s k with Some _ => Ok ([], VSt (upd (vc s) k None) (vp s) (vr s)) | None => Undef end
  | CPoke k l => match vc s k with
                 | Some l0 => if length l =? length l0 then Ok ([], VSt (upd (vc s) k (Some l)) (vp s) (vr s)) else Undef
                 | None => Undef end
  | SetScaling obj xs gs =>
      match vp s with
      | Some p => x <- opt_array (vc s) (v_n p) xs; g <- opt_array (vc s) (v_m p) gs;
          Ok ([OReply V true], VSt (vc s) (Some (VProb (v_n p) (v_m p) (v_xL p) (v_xU p) (v_gL p) (v_gU p)
            (v_nj p) (v_nh p) (v_style p) (v_f p) (v_g p) (v_gf p) (v_jg p) (v_h p) (v_inter p) obj x g)) (vr s))
      | None => Undef end
  | SetInter _ cb =>
      match vp s with
      | Some p => Ok ([OReply V true], VSt (vc s) (Some (VProb (v_n p) (v_m p) (v_xL p) (v_xU p) (v_gL p) (v_gU p)
            (v_nj p) (v_nh p) (v_style p) (v_f p) (v_g p) (v_gf p) (v_jg p) (v_h p) cb (v_obj p) (v_xs p) (v_gs p))) (vr s))
      | None => Undef end
  | Solve _ a init =>
      match vp s, vr s with
      | Some p, None =>
          if negb (init =? Solve_Succeeded)%Z then Ok ([OStatus V init], s) else
          x <- opt_array (vc s) (v_n p) (s_x a);
          match x with
          | None => Ok ([OStatus V Invalid_Problem_Definition], s)
          | Some x =>
              lam <- opt_array (vc s) (v_m p) (s_mg a); zL <- opt_array (vc s) (v_n p) (s_mL a); zU <- opt_array (vc s) (v_n p) (s_mU a);
              if solvable p then Ok ([], VSt (vc s) (vp s) (Some (VRun p x lam zL zU a None false)))
              else Ok ([OStatus V Invalid_Problem_Definition], s)
          end
      | _, _ => Undef end
  | NlpInfo _ => on_run s (fun r => let p := r_prob r in
      Ok ([ONlpInfo V (v_n p) (v_m p) (v_nj p) (v_nh p) (negb (v_style p =? 0)%Z)], r))
  | Bounds _ => on_run s (fun r => let p := r_prob r in Ok ([OBounds (v_xL p) (v_xU p) (v_gL p) (v_gU p)], r))
  | Scaling _ => on_run s (fun r => let p := r_prob r in Ok ([OScaling (v_obj p) (v_xs p) (v_gs p)], r))
  | StartingPoint _ ix iz il => on_run s (fun r =>
      Ok ([OStart ((negb iz || (is_some (r_zL r) && is_some (r_zU r))) && (negb il || is_some (r_lam r)))
             (if ix then Some (r_x r) else None) (if iz then r_zL r else None) (if iz then r_zU r else None)
             (if il then r_lam r else None)], r))
  | EvalF x nx ret => on_run s (fun r => veval nx x (fun q => OCallF (v_f (r_prob r)) q nx (s_user (r_out r))) ret r)
  | EvalGradF x nx ret => on_run s (fun r => veval nx x (fun q => OCallGradF (v_gf (r_prob r)) q nx (s_user (r_out r))) ret r)
  | EvalG x nx ret => on_run s (fun r => veval nx x (fun q => OCallG (v_g (r_prob r)) q nx (s_user (r_out r))) ret r)
  | EvalJac x nx ret => on_run s (fun r => veval nx x (fun q => OCallJac (v_jg (r_prob r)) q nx (s_user (r_out r))) ret r)
  | EvalH x nx objf lam nl ret => on_run s (fun r =>
      let m := v_m (r_prob r) in
      q <- point_after nx x r;
      l <- (match lam with None => Ok (repeat junk m)
            | Some l => if m <=? length l then Ok (firstn m l) else Undef end);
      Ok ([OCallH (v_h (r_prob r)) q nx objf l nl (s_user (r_out r)); answered ret], with_point r q))
  | CbWritesX x => on_run s (fun r =>
      match r_point r with
      | Some _ => q <- point_after true x r; Ok ([], with_point r q)
      | None => Undef end)
  | InterBegin args => on_run s (fun r =>
      match v_inter (r_prob r) with
      | None => Ok ([OReply V true], r)
      | Some cb => Ok ([OCallInter cb args (s_user (r_out r))], with_incb r true) end)
  | InterEnd _ ret => on_run s (fun r => if r_incb r then Ok ([answered ret], with_incb r false) else Undef)
  | Finalize x zL zU g lam objv =>
      match vp s, vr s with
      | Some _, Some r =>
          let n := v_n (r_prob r) in let m := v_m (r_prob r) in let o := r_out r in
          c1 <- put n x (s_x o) (vc s); c2 <- put n zL (s_mL o) c1; c3 <- put n zU (s_mU o) c2;
          c4 <- put m g (s_g o) c3; c5 <- put m lam (s_mg o) c4; c6 <- put 1 [objv] (s_objv o) c5;
          Ok ([], VSt c6 (vp s) (vr s))
      | _, _ => Undef end
  | SolveEnd _ st =>
      match vp s, vr s with
      | Some _, Some _ => Ok ([OStatus V (match st with Some z => z | None => Unrecoverable_Exception end)], VSt (vc s) (vp s) None)
      | _, _ => Undef end
  | GetCurrent _ =>
      match vp s with
      | Some _ => Ok ([OAvail V (match vr s with Some r => r_incb r | None => false end)], s)
      | None => Undef end
  | FreeProblem _ => match vp s, vr s with Some _, None => Ok ([], VSt (vc s) None None) | _, _ => Undef end
  end.

Fixpoint vruns (s : vstate) (es : list (event V)) : res (list (obs V) * vstate) :=
  match es with
  | [] => Ok ([], s)
  | e :: es => r <- vstep s e; r' <- vruns (snd r) es; Ok (fst r ++ fst r', snd r')
  end.

(** the problem made from the arguments and the contents of the arrays at the time of
    the call *)
Definition vproblem (a : cargs) (xL xU gL gU : list V) : vprob :=
  VProb (Z.to_nat (a_n a)) (Z.to_nat (a_m a)) xL xU gL gU (a_nj a) (a_nh a) (a_style a)
    (a_f a) (a_g a) (a_gf a) (a_jg a) (a_h a) None one None None.
(** the arrays passed to CreateIpoptProblem hold at least n (or m) numbers *)
Definition arrays_hold (c : cmap) (a : cargs) (xL xU gL gU : list V) : Prop :=
  array c (Z.to_nat (a_n a)) (a_xL a) = Some xL /\ array c (Z.to_nat (a_n a)) (a_xU a) = Some xU /\
  (if (0 <? a_m a)%Z then array c (Z.to_nat (a_m a)) (a_gL a) = Some gL /\ array c (Z.to_nat (a_m a)) (a_gU a) = Some gU
   else gL = [] /\ gU = []).
End S.
