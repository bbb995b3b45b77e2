(** Model of src/LinAlg/TMatrices/IpTripletHelper.cpp: conversion of any matrix
    into triplet arrays, and of vectors into arrays. Built on MatModel.

    Arrays are lists; a pointer into an array is an offset [p]; every access is
    checked, [None] is an access outside of the array, a null dereference or the
    exception UNKNOWN_MATRIX_TYPE.
    Simplifications: Index has no overflow; the value arrays of GenTMatrix and
    SymTMatrix are set; the arrays given by the caller do not overlap. *)
From Coq Require Import List Bool Arith.
From Verif Require Import VecModel VecSpec VecLift ExpModel MatModel.
Import ListNotations.

Section Trip.
Context {T : Type} (O : nops T).
(** content of new Number[n] and of new Index[n] *)
Variables (junk : nat -> list T) (ijunk : nat -> list nat).

Definition rd {A} (a : list A) (p : nat) : option A := nth_error a p.
Definition wr {A} (a : list A) (p : nat) (x : A) : option (list A) := if Nat.ltb p (length a) then Some (upd p x a) else None.
(** for( i = 0; i < n; i++ ) a[i] = f(i), with a pointing to position p *)
Definition put {A} (n : nat) (f : nat -> option A) (p : nat) (a : list A) : option (list A) :=
  loop n (fun i a => obind (f i) (wr a (p + i))) a.

(** 830-869 FillValuesFromVector *)
Fixpoint fill_vec (n : nat) (v : vec T) (p : nat) (a : list T) {struct v} : option (list T) :=
  match v with
  | Dense _ d => put n (delem d) p a
  | Comp l =>
      (fix go (l : list (vec T)) (p : nat) (a : list T) {struct l} : option (list T) :=
         match l with
         | [] => Some a
         | w :: l => obind (fill_vec (dim w) w p a) (fun a => go l (p + dim w) a)
         end) l p a
  end.
(** 1147-1180 PutValuesInVector: values + p is the array to read from *)
Fixpoint put_vec (n : nat) (values : list T) (p : nat) (v : vec T) {struct v} : option (vec T) :=
  match v with
  | Dense m d =>
      let w := d_values m (junk m) d in
      obind (put n (fun i => rd values (p + i)) 0 (vlist w)) (fun l => Some (Dense m (with_values w l)))
  | Comp l =>
      obind ((fix go (l : list (vec T)) (p : nat) {struct l} : option (list (vec T)) :=
         match l with
         | [] => Some []
         | w :: l => obind (put_vec (dim w) values p w) (fun w' => obind (go l (p + dim w)) (fun l' => Some (w' :: l')))
         end) l p) (fun l => Some (Comp l))
  end.

(** 33-129 GetNumberEntries, 364-456 *)
Fixpoint nent (m : mat T) : option nat :=
  match m with
  | GenT _ _ ir _ _ => Some (length ir)
  | SymT _ ir _ _ => Some (length ir)
  | Scaled _ m _ => nent m
  | SymScaled _ m => nent m
  | Diag d => Some (dim d)
  | Ident n _ => Some n
  | Expan _ pos => Some (length pos)
  | Sum _ _ k _ t => loop k (fun i s => obind (nent (t i)) (fun n => Some (s + n))) 0
  | SumSym _ k _ t => loop k (fun i s => obind (nent (t i)) (fun n => Some (s + n))) 0
  | ZeroM _ _ => Some 0
  | ZeroSym _ => Some 0
  | Compound brs bcs _ c =>
      loop (length brs) (fun i s =>
        loop (length bcs) (fun j s => match c i j with Some b => obind (nent b) (fun n => Some (s + n)) | None => Some s end) s) 0
  | CompoundSym bd c =>
      loop (length bd) (fun i s =>
        loop (S i) (fun j s => match c i j with Some b => obind (nent b) (fun n => Some (s + n)) | None => Some s end) s) 0
  | Transp m => nent m
  | ExpMV k _ rs _ _ => Some (k * sdim rs)
  | MultiVec _ _ _ => None
  | LowRank _ _ _ _ _ _ _ => None
  end.

(** iRow and jCol *)
Definition arrs : Type := (list nat * list nat)%type.
Definition put2 (n : nat) (f g : nat -> option nat) (p : nat) (a : arrs) : option arrs :=
  loop n (fun i (a : arrs) => obind (f i) (fun r => obind (wr (fst a) (p + i) r) (fun ir =>
                    obind (g i) (fun c => obind (wr (snd a) (p + i) c) (fun jc => Some (ir, jc)))))) a.
Definition swap (a : arrs) : arrs := (snd a, fst a).
Definition oadd (o : option nat) (k : nat) : option nat := obind o (fun i => Some (i + k)).

(** FillRowCol 131-245 and FillRowCol_; iRow and jCol point to position p.
    458-474 GenT, 490-506 SymT, 519-536 Diag, 549-566 Ident, 583-601 Expansion,
    617-643 Sum, 673-699 SumSym, 739-777 Compound, 806-845 CompoundSym, 915-925 Scaled,
    975-985 SymScaled, 1024-1034 Transpose, 1045-1085 ExpandedMultiVector *)
Fixpoint fill_rc (m : mat T) (n ro co : nat) (p : nat) (a : arrs) {struct m} : option arrs :=
  match m with
  | GenT _ _ ir jc _ | SymT _ ir jc _ =>
      put2 n (fun i => oadd (rd ir i) ro) (fun i => oadd (rd jc i) co) p a
  | Diag _ | Ident _ _ =>
      put2 n (fun i => Some (i + (ro + 1))) (fun i => Some (i + (co + 1))) p a
  | Expan _ pos =>
      put2 n (fun i => oadd (rd pos i) (ro + 1)) (fun i => Some (i + (co + 1))) p a
  | Sum _ _ k _ t =>
      obind (loop k (fun i (st : nat * arrs) => let (p, a) := st in
               obind (nent (t i)) (fun tn => obind (fill_rc (t i) tn ro co p a) (fun a => Some (p + tn, a)))) (p, a))
            (fun st => Some (snd st))
  | SumSym _ k _ t =>
      obind (loop k (fun i (st : nat * arrs) => let (p, a) := st in
               obind (nent (t i)) (fun tn => obind (fill_rc (t i) tn ro co p a) (fun a => Some (p + tn, a)))) (p, a))
            (fun st => Some (snd st))
  | ZeroM _ _ | ZeroSym _ => Some a
  | Compound brs bcs _ c =>
      obind (loop (length brs) (fun i (st : nat * (nat * arrs)) => let (cro, st) := st in
               obind (loop (length bcs) (fun j (st : nat * (nat * arrs)) => let '(cco, (p, a)) := st in
                        obind (match c i j with
                               | Some b => obind (nent b) (fun bn => obind (fill_rc b bn cro cco p a) (fun a => Some (p + bn, a)))
                               | None => Some (p, a)
                               end) (fun st => Some (cco + nth j bcs 0, st))) (co, st))
                     (fun st => Some (cro + nth i brs 0, snd st))) (ro, (p, a)))
            (fun st => Some (snd (snd st)))
  | CompoundSym bd c =>
      obind (loop (length bd) (fun i (st : nat * (nat * arrs)) => let (cro, st) := st in
               obind (loop (S i) (fun j (st : nat * (nat * arrs)) => let '(cco, (p, a)) := st in
                        obind (match c i j with
                               | Some b => obind (nent b) (fun bn => obind (fill_rc b bn cro cco p a) (fun a => Some (p + bn, a)))
                               | None => Some (p, a)
                               end) (fun st => Some (cco + nth j bd 0, st))) (co, st))
                     (fun st => Some (cro + nth i bd 0, snd st))) (ro, (p, a)))
            (fun st => Some (snd (snd st)))
  | Scaled _ m _ => fill_rc m n ro co p a
  | SymScaled _ m => fill_rc m n ro co p a
  | Transp m => obind (fill_rc m n co ro p (swap a)) (fun a => Some (swap a))
  | ExpMV k _ _ nc P =>
      let pos j := match P with Some (_, pos) => rd pos j | None => Some j end in
      let nexp := match P with Some (_, pos) => length pos | None => nc end in
      obind (loop k (fun i (st : nat * arrs) => let (p, a) := st in
               obind (put2 nexp (fun j => Some (ro + 1 + i)) (fun j => obind (pos j) (fun q => Some (co + 1 + q))) p a) (fun a => Some (p + nexp, a))) (p, a))
            (fun st => Some (snd st))
  | MultiVec _ _ _ => None
  | LowRank _ _ _ _ _ _ _ => None
  end.

(** values[i] *= scaling[index[i] - 1] for the n entries at p *)
Definition scale_by (n : nat) (sc : list T) (idx : list nat) (p : nat) (a : list T) : option (list T) :=
  loop n (fun i a => obind (rd a (p + i)) (fun v => obind (rd idx i) (fun k => obind (get1 sc k) (fun s => wr a (p + i) (tmul O v s))))) a.
(** both indices in one loop (SymScaledMatrix) *)
Definition scale_both (n : nat) (sc : list T) (ir jc : list nat) (p : nat) (a : list T) : option (list T) :=
  loop n (fun i a =>
    obind (rd a (p + i)) (fun v => obind (rd ir i) (fun k => obind (get1 sc k) (fun s => obind (wr a (p + i) (tmul O v s)) (fun a =>
    obind (rd a (p + i)) (fun v => obind (rd jc i) (fun k => obind (get1 sc k) (fun s => wr a (p + i) (tmul O v s))))))))) a.

(** FillValues 247-362 and FillValues_: 476-488 GenT, 508-517 SymT, 538-547 Diag, 568-581 Ident,
    603-615 Expansion, 645-671 Sum, 701-737 SumSym, 779-804 Compound, 847-871 CompoundSym,
    927-973 Scaled, 987-1022 SymScaled, 1036-1043 Transpose, 1087-1145 ExpandedMultiVector *)
Fixpoint fill_val (m : mat T) (n : nat) (p : nat) (a : list T) {struct m} : option (list T) :=
  match m with
  | GenT _ _ _ _ vals => put n (rd vals) p a
  | SymT _ ir _ vals => put (length ir) (rd vals) p a
  | Diag d => fill_vec n d p a
  | Ident _ f => put n (fun _ => Some f) p a
  | Expan _ _ => put n (fun _ => Some (t1 O)) p a
  | Sum _ _ k f t =>
      obind (loop k (fun i (st : nat * list T) => let (p, a) := st in
               obind (nent (t i)) (fun tn => obind (fill_val (t i) tn p a) (fun a =>
               obind (loop tn (fun l a => obind (rd a (p + l)) (fun v => wr a (p + l) (tmul O v (f i)))) a) (fun a => Some (p + tn, a))))) (p, a))
            (fun st => Some (snd st))
  | SumSym _ k f t =>
      obind (loop k (fun i (st : nat * list T) => let (p, a) := st in
               obind (nent (t i)) (fun tn =>
               obind (if negb (teq O (f i) (t0 O)) then
                        obind (fill_val (t i) tn p a) (fun a =>
                        if negb (teq O (f i) (t1 O)) then loop tn (fun l a => obind (rd a (p + l)) (fun v => wr a (p + l) (tmul O v (f i)))) a else Some a)
                      else put tn (fun _ => Some (t0 O)) p a) (fun a => Some (p + tn, a)))) (p, a))
            (fun st => Some (snd st))
  | ZeroM _ _ | ZeroSym _ => Some a
  | Compound brs bcs _ c =>
      obind (loop (length brs) (fun i (st : nat * list T) =>
               loop (length bcs) (fun j (st : nat * list T) => let (p, a) := st in
                 match c i j with
                 | Some b => obind (nent b) (fun bn => obind (fill_val b bn p a) (fun a => Some (p + bn, a)))
                 | None => Some (p, a)
                 end) st) (p, a))
            (fun st => Some (snd st))
  | CompoundSym bd c =>
      obind (loop (length bd) (fun i (st : nat * list T) =>
               loop (S i) (fun j (st : nat * list T) => let (p, a) := st in
                 match c i j with
                 | Some b => obind (nent b) (fun bn => obind (fill_val b bn p a) (fun a => Some (p + bn, a)))
                 | None => Some (p, a)
                 end) st) (p, a))
            (fun st => Some (snd st))
  | Scaled r m c =>
      obind (fill_val m n p a) (fun a =>
      obind (fill_rc m n 0 0 0 (ijunk n, ijunk n)) (fun rc =>
      obind (match r with
             | Some s => obind (fill_vec (nrows m) s 0 (junk (nrows m))) (fun sc => scale_by n sc (fst rc) p a)
             | None => Some a
             end) (fun a =>
      match c with
      | Some s => obind (fill_vec (ncols m) s 0 (junk (ncols m))) (fun sc => scale_by n sc (snd rc) p a)
      | None => Some a
      end)))
  | SymScaled s m =>
      obind (fill_val m n p a) (fun a =>
      obind (fill_rc m n 0 0 0 (ijunk n, ijunk n)) (fun rc =>
      match s with
      | Some s => obind (fill_vec (nrows m) s 0 (junk (nrows m))) (fun sc => scale_both n sc (fst rc) (snd rc) p a)
      | None => Some a
      end))
  | Transp m => fill_val m n p a
  | ExpMV k vecs _ nc P =>
      match P with
      | Some (_, pos) =>
          let nexp := length pos in
          obind (loop k (fun i (st : nat * (list T * list T)) => let '(p, (vv, a)) := st in
                   match vecs i with
                   | Some v => obind (fill_vec nexp v 0 vv) (fun vv => obind (put nexp (rd vv) p a) (fun a => Some (p + nexp, (vv, a))))
                   | None => obind (put nexp (fun _ => Some (t0 O)) p a) (fun a => Some (p + nexp, (vv, a)))
                   end) (p, (junk nexp, a)))
                (fun st => Some (snd (snd st)))
      | None =>
          obind (loop k (fun i (st : nat * list T) => let (p, a) := st in
                   match vecs i with
                   | Some v => obind (fill_vec nc v p a) (fun a => Some (p + nc, a))
                   | None => obind (put nc (fun _ => Some (t0 O)) p a) (fun a => Some (p + nc, a))
                   end) (p, a))
                (fun st => Some (snd st))
      end
  | MultiVec _ _ _ => None
  | LowRank _ _ _ _ _ _ _ => None
  end.
End Trip.
