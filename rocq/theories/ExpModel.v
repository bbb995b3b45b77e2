(** Model of ExpansionMatrix (src/LinAlg/IpExpansionMatrix.cpp) and of the default
    implementations it falls back to (src/LinAlg/IpMatrix.cpp 34-62), on top of the
    model of dense vectors. Polymorphic in the number type.

    Simplifications: the operands are different objects (a matrix-vector product
    never has its argument as target); arrays are lists; DBG_ASSERTs are not
    executed. *)
From Coq Require Import List Bool Arith ZArith.
From Verif Require Import VecModel.
Import ListNotations.

(** IpExpansionMatrix.cpp 434-465: the two index arrays of ExpansionMatrixSpace,
    built from the positions given by the user and an offset. *)
Definition expanded_pos (exp : list Z) (offset : Z) : list nat := map (fun p => Z.to_nat (p - offset)) exp.
Fixpoint fill_compressed (pos : list nat) (i : Z) (c : list Z) : list Z :=
  match pos with [] => c | p :: pos => fill_compressed pos (i + 1) (upd p i c) end.
Definition compressed_pos (nrows : nat) (pos : list nat) : list Z := fill_compressed pos 0 (repeat (-1)%Z nrows).

Section Model.
Context {T : Type} (O : nops T).
Local Notation "x + y" := (tadd O x y).
Local Notation "x - y" := (tsub O x y).
Local Notation "x * y" := (tmul O x y).
Local Notation "x / y" := (tdiv O x y).
Local Notation "x =? y" := (teq O x y).
(** nrows: NRows(); pos: ExpandedPosIndices(), its length is NCols() *)
Variables (nrows : nat) (pos : list nat).
Local Notation ncols := (length pos).

(** for i < NCols(): y[exp_pos[i]] = f(y[exp_pos[i]], x[i]) *)
Fixpoint scatter {A} (f : T -> A -> T) (pos : list nat) (x : list A) (y : list T) : list T :=
  match pos, x with
  | p :: pos, a :: x => scatter f pos x (upd p (f (nth p y (t0 O)) a) y)
  | _, _ => y
  end.
(** for i < NCols(): y[i] = f(y[i], x[exp_pos[i]]) *)
Definition gather (f : T -> T -> T) (x y : list T) : list T := map2 (fun yi p => f yi (nth p x (t0 O))) y pos.

(** "Take care of the y part of the addition": 36-45, 106-115 *)
Definition y_part (n : nat) (junk : list T) (beta : T) (y : dvec T) : dvec T :=
  d_values n junk (if negb (beta =? t0 O) then d_scal O beta y else d_set (t0 O) y).
Definition with_values (y : dvec T) (l : list T) : dvec T := DV true false (scal y) (Some l).

(** MultVectorImpl, lines 26-94 *)
Definition e_mult (junk : list T) (alpha : T) (x : dvec T) (beta : T) (y : dvec T) : dvec T :=
  let y := y_part nrows junk beta y in
  let ys := vlist y in
  with_values y
   (if hom x then
      let val := alpha * scal x in
      if negb (val =? t0 O) then scatter (fun u _ => u + val) pos (repeat (t0 O) ncols) ys else ys
    else
      if alpha =? t1 O then scatter (fun u a => u + a) pos (vlist x) ys
      else if alpha =? tm1 O then scatter (fun u a => u - a) pos (vlist x) ys
      else scatter (fun u a => u + alpha * a) pos (vlist x) ys).

(** TransMultVectorImpl, lines 96-164 *)
Definition e_trans (junk : list T) (alpha : T) (x : dvec T) (beta : T) (y : dvec T) : dvec T :=
  let y := y_part ncols junk beta y in
  let ys := vlist y in
  with_values y
   (if hom x then
      let val := alpha * scal x in
      if negb (val =? t0 O) then map (fun u => u + val) ys else ys
    else
      if alpha =? t1 O then gather (fun u a => u + a) (vlist x) ys
      else if alpha =? tm1 O then gather (fun u a => u - a) (vlist x) ys
      else gather (fun u a => u + alpha * a) (vlist x) ys).

(** IpMatrix.cpp 34-44: default AddMSinvZ; a new vector of NCols() elements *)
Definition m_addmsinvz (junk : nat -> list T) (jscal alpha : T) (s z x : dvec T) : dvec T :=
  let tmp := d_addquot O ncols (junk ncols) (t1 O) z s (t0 O) (d_new O ncols jscal) in
  e_mult (junk nrows) alpha tmp (t1 O) x.

(** AddMSinvZImpl, lines 167-237 *)
Definition e_addmsinvz (junk : nat -> list T) (jscal alpha : T) (s z x : dvec T) : dvec T :=
  if hom s then m_addmsinvz junk jscal alpha s z x
  else
    let x := d_values nrows (junk nrows) x in
    let xs := vlist x in
    with_values x
     (if hom z then
        let val := alpha * scal z in
        if negb (val =? t0 O) then scatter (fun u si => u + val / si) pos (vlist s) xs else xs
      else
        let zs := combine (vlist z) (vlist s) in
        let go f := scatter (fun u p => f u (fst p) (snd p)) pos zs xs in
        if alpha =? t1 O then go (fun u zi si => u + zi / si)
        else if alpha =? tm1 O then go (fun u zi si => u - zi / si)
        else go (fun u zi si => u + (alpha * zi) / si)).

(** IpMatrix.cpp 46-62: default SinvBlrmZMTdBr *)
Definition m_sinv (junk : nat -> list T) (alpha : T) (s r z d x : dvec T) : dvec T :=
  d_div O ncols s (d_axpy O ncols (t1 O) r (d_mul O ncols z (e_trans (junk ncols) alpha d (t0 O) x))).

(** SinvBlrmZMTdBrImpl, lines 239-374 *)
Definition e_sinv (junk : nat -> list T) (alpha : T) (s r z d x : dvec T) : dvec T :=
  if hom s || hom d then m_sinv junk alpha s r z d x
  else
    let x := d_values ncols (junk ncols) x in
    let ds := map (fun p => nth p (vlist d) (t0 O)) pos in       (* vals_D[exp_pos[i]] *)
    with_values x
     (if hom r then
        if hom z then
          let val := alpha * scal z in
          if val =? t0 O then map (fun si => scal r / si) (vlist s)
          else map2 (fun di si => (scal r + val * di) / si) ds (vlist s)
        else
          if alpha =? t1 O then map3 (fun zi di si => (scal r + zi * di) / si) (vlist z) ds (vlist s)
          else if alpha =? tm1 O then map3 (fun zi di si => (scal r - zi * di) / si) (vlist z) ds (vlist s)
          else map3 (fun zi di si => (scal r + (alpha * zi) * di) / si) (vlist z) ds (vlist s)
      else
        if hom z then
          let val := alpha * scal z in
          map3 (fun ri di si => (ri + val * di) / si) (vlist r) ds (vlist s)
        else
          let zd := combine (vlist z) ds in
          if alpha =? t1 O then map3 (fun ri zd si => (ri + fst zd * snd zd) / si) (vlist r) zd (vlist s)
          else if alpha =? tm1 O then map3 (fun ri zd si => (ri - fst zd * snd zd) / si) (vlist r) zd (vlist s)
          else map3 (fun ri zd si => (ri + (alpha * fst zd) * snd zd) / si) (vlist r) zd (vlist s)).

(** ComputeRowAMax (IpMatrix.hpp 134-167 sets the result to 0 if init) with
    ComputeRowAMaxImpl 376-391; ComputeColAMax with ComputeColAMaxImpl 393-407. *)
Definition e_rowamax (junk : list T) (init : bool) (v : dvec T) : dvec T :=
  let v := d_values nrows junk (if init then d_set (t0 O) v else v) in
  with_values v (scatter (fun u _ => tmax O u (t1 O)) pos (repeat (t0 O) ncols) (vlist v)).
Definition e_colamax (init : bool) (v : dvec T) : dvec T :=
  if init then d_set (t1 O) (d_set (t0 O) v) else d_emax O ncols (d_set (t1 O) (d_new O ncols (t0 O))) v.
End Model.
