(** Model of the converter from symmetric triplet matrices to the compressed
    sparse row format.
    /repo/src/Algorithm/LinearSolvers/IpTripletToCSRConverter.cpp, .hpp

    Arrays allocated by [new Index[n]] are lists of [option nat]: [None] is a
    cell that was not written yet.  A read outside of the array or of an
    unwritten cell, and a write outside of the array, is undefined behaviour
    and makes the whole computation [None].
    Simplification: [Index] is [nat] (row and column numbers and counts are
    assumed not to overflow a 32-bit int). *)
From Coq Require Import List Arith Bool Lia.
Import ListNotations.
Set Implicit Arguments.

Definition arr := list (option nat).

Definition anew (n : nat) : arr := repeat None n.

Definition aget (a : arr) (i : nat) : option nat :=
  match nth_error a i with Some (Some x) => Some x | _ => None end.

Fixpoint upd {A} (a : list A) (i : nat) (x : A) : list A :=
  match a, i with
  | [], _ => []
  | _ :: r, O => x :: r
  | y :: r, S k => y :: upd r k x
  end.

Definition aset (a : arr) (i x : nat) : option arr :=
  if i <? length a then Some (upd a i (Some x)) else None.

Notation "x <- e ;; f" := (match e with Some x => f | None => None end)
  (at level 61, e at next level, right associativity).
Notation "' p <- e ;; f" := (match e with Some p => f | None => None end)
  (at level 61, p pattern, e at next level, right associativity).

Definition ainc (a : arr) (i : nat) : option arr :=
  v <- aget a i ;; aset a i (S v).

(** [for (i = i0; i < i0+n; i++) s = f i s] *)
Fixpoint for_loop {S : Type} (n i0 : nat) (f : nat -> S -> option S) (s : S) : option S :=
  match n with
  | O => Some s
  | Datatypes.S n' => s1 <- f i0 s ;; for_loop n' (Datatypes.S i0) f s1
  end.

(** TripletEntry (IpTripletToCSRConverter.hpp:25-88) *)
Record entry := Entry { e_row : nat; e_col : nat; e_pos : nat }.

(** TripletEntry::Set (IpTripletToCSRConverter.hpp:30-47) *)
Definition e_set (i_row j_col pos : nat) : entry :=
  if j_col <? i_row then Entry j_col i_row pos else Entry i_row j_col pos.

(** TripletEntry::operator< (IpTripletToCSRConverter.hpp:74-79) *)
Definition e_lt (a b : entry) : bool :=
  (e_row a <? e_row b) || ((e_row a =? e_row b) && (e_col a <? e_col b)).

(** The list filled at IpTripletToCSRConverter.cpp:83-90 *)
Fixpoint entry_list (k : nat) (airn ajcn : list nat) : list entry :=
  match airn, ajcn with
  | i :: ri, j :: rj => e_set i j k :: entry_list (S k) ri rj
  | _, _ => []
  end.

Inductive trifull := Triangular | Full.
Definition is_full (h : trifull) : bool := match h with Full => true | _ => false end.

(** Local variables of InitializeConverter (cpp:105-118,152-153). *)
Record st := St {
  ja_tmp : arr; rc_tmp : arr; ia : arr; ipf_tmp : arr; dt_tmp : arr; dc_tmp : arr;
  ncf : nat;         (* nonzeros_compressed_full *)
  nc : nat;          (* nonzeros_compressed_ *)
  cur : nat;         (* cur_row *)
  idb : nat;         (* idouble *)
  idbf : nat         (* idouble_full *)
}.

(** cpp:105-127: allocation and zeroing of the row counts *)
Definition init_st (hf : trifull) (dim nz : nat) : st :=
  St (anew nz) (if is_full hf then repeat (Some 0) (dim + 1) else [])
     (anew (dim + 1)) (anew nz) (anew nz) (anew nz) 0 0 1 0 0.

(** cpp:129-151: leading empty rows and the first entry *)
Definition first_entry (hf : trifull) (e : entry) (s : st) : option st :=
  ia1 <- for_loop (e_row e - 1) 1 (fun r a => aset a (r - 1) 0) (ia s) ;;
  let cur1 := if 1 <? e_row e then e_row e else 1 in
  ia2 <- aset ia1 (cur1 - 1) 0 ;;
  ja1 <- aset (ja_tmp s) 0 (e_col e) ;;
  ip1 <- aset (ipf_tmp s) 0 (e_pos e) ;;
  '(ncf1, rc1) <-
    (if is_full hf then
       rc1 <- ainc (rc_tmp s) (cur1 - 1) ;;
       if negb (cur1 =? e_col e) then
         rc2 <- ainc rc1 (e_col e - 1) ;; Some (ncf s + 1 + 1, rc2)
       else Some (ncf s + 1, rc1)
     else Some (ncf s, rc_tmp s)) ;;
  Some (St ja1 rc1 ia2 ip1 (dt_tmp s) (dc_tmp s) ncf1 (nc s) cur1 0 0).

(** cpp:154-197: the body of the loop over the remaining entries *)
Definition next_entry (hf : trifull) (e : entry) (s : st) : option st :=
  let irow := e_row e in
  let jcol := e_col e in
  rep <- (if cur s =? irow
          then (c <- aget (ja_tmp s) (nc s) ;; Some (c =? jcol))
          else Some false) ;;
  if (rep : bool) then
    dt1 <- aset (dt_tmp s) (idb s) (e_pos e) ;;
    dc1 <- aset (dc_tmp s) (idb s) (nc s) ;;
    Some (St (ja_tmp s) (rc_tmp s) (ia s) (ipf_tmp s) dt1 dc1 (ncf s) (nc s) (cur s)
             (idb s + 1)
             (if is_full hf && negb (irow =? jcol) then idbf s + 1 + 1 else idbf s + 1))
  else
    '(ncf1, rc1) <-
      (if is_full hf then
         rc1 <- ainc (rc_tmp s) (jcol - 1) ;;
         if negb (irow =? jcol) then
           rc2 <- ainc rc1 (irow - 1) ;; Some (ncf s + 1 + 1, rc2)
         else Some (ncf s + 1, rc1)
       else Some (ncf s, rc_tmp s)) ;;
    let nc1 := nc s + 1 in
    ja1 <- aset (ja_tmp s) nc1 jcol ;;
    ip1 <- aset (ipf_tmp s) nc1 (e_pos e) ;;
    if negb (cur s =? irow) then
      ia1 <- aset (ia s) (cur s) nc1 ;;
      Some (St ja1 rc1 ia1 ip1 (dt_tmp s) (dc_tmp s) ncf1 nc1 (cur s + 1) (idb s) (idbf s))
    else
      Some (St ja1 rc1 (ia s) ip1 (dt_tmp s) (dc_tmp s) ncf1 nc1 (cur s) (idb s) (idbf s)).

Fixpoint entries_loop (hf : trifull) (es : list entry) (s : st) : option st :=
  match es with
  | [] => Some s
  | e :: r => s1 <- next_entry hf e s ;; entries_loop hf r s1
  end.

(** cpp:198-202: total count, trailing rows *)
Definition finish_ia (dim : nat) (s : st) : option st :=
  let n := nc s + 1 in
  ia1 <- for_loop (dim + 1 - cur s) (cur s) (fun i a => aset a i n) (ia s) ;;
  Some (St (ja_tmp s) (rc_tmp s) ia1 (ipf_tmp s) (dt_tmp s) (dc_tmp s) (ncf s) n (cur s)
           (idb s) (idbf s)).

(** Everything that IA(), JA() and ConvertValues read afterwards. *)
Record conv := Conv {
  v_ia : arr; v_ja : arr; v_ipf : arr; v_dt : arr; v_dc : arr;
  v_nc : nat;        (* nonzeros_compressed_, the return value *)
  v_nd : nat         (* num_doubles_ *)
}.

(** [for i<n: dst[i] = f(src[i])] *)
Definition acopy (n : nat) (f : nat -> nat) (src dst : arr) : option arr :=
  for_loop n 0 (fun i d => x <- aget src i ;; aset d i (f x)) dst.

(** cpp:207-249: Triangular_Format *)
Definition finish_tri (offset dim nz : nat) (s : st) : option conv :=
  let n := nc s in
  '(ja1, ia1) <-
    (if offset =? 0 then
       ja1 <- acopy n (fun x => x - 1) (ja_tmp s) (anew n) ;; Some (ja1, ia s)
     else
       ja1 <- acopy n (fun x => x) (ja_tmp s) (anew n) ;;
       ia1 <- for_loop (dim + 1) 0 (fun i a => ainc a i) (ia s) ;;
       Some (ja1, ia1)) ;;
  ip1 <- acopy n (fun x => x) (ipf_tmp s) (anew n) ;;
  dt1 <- acopy (idb s) (fun x => x) (dt_tmp s) (anew (idb s)) ;;
  dc1 <- acopy (idb s) (fun x => x) (dc_tmp s) (anew (idb s)) ;;
  Some (Conv ia1 ja1 ip1 dt1 dc1 n (nz - n)).

(** Local variables of the Full_Format branch (cpp:254-269). *)
Record fst_ := Fst {
  f_iat : arr; f_ja : arr; f_ipf : arr; f_dt : arr; f_dc : arr; jd1 : nat; jd2 : nat }.

(** cpp:277-289: the repeated entries of compressed element j; [fuel] is
    [idouble - jd1] at the start. *)
Fixpoint dbl_loop (fuel : nat) (s : st) (i j jrow : nat) (t : fst_) : option fst_ :=
  match fuel with
  | O => Some t
  | S fuel' =>
    q <- aget (dc_tmp s) (jd1 t) ;;
    if j =? q then
      p <- aget (dt_tmp s) (jd1 t) ;;
      pi <- aget (f_iat t) (i + 1) ;;
      dt1 <- aset (f_dt t) (jd2 t) p ;;
      dc1 <- aset (f_dc t) (jd2 t) pi ;;
      if negb (jrow =? i) then
        pj <- aget (f_iat t) (jrow + 1) ;;
        dt2 <- aset dt1 (jd2 t + 1) p ;;
        dc2 <- aset dc1 (jd2 t + 1) pj ;;
        dbl_loop fuel' s i j jrow
          (Fst (f_iat t) (f_ja t) (f_ipf t) dt2 dc2 (jd1 t + 1) (jd2 t + 1 + 1))
      else
        dbl_loop fuel' s i j jrow
          (Fst (f_iat t) (f_ja t) (f_ipf t) dt1 dc1 (jd1 t + 1) (jd2 t + 1))
    else Some t
  end.

(** cpp:272-297: one compressed element [j] of row [i] *)
Definition full_elem (offset : nat) (s : st) (i j : nat) (t : fst_) : option fst_ :=
  c <- aget (ja_tmp s) j ;;
  let jrow := c - 1 in
  pi <- aget (f_iat t) (i + 1) ;;
  ja1 <- aset (f_ja t) pi (jrow + offset) ;;
  fp <- aget (ipf_tmp s) j ;;
  ip1 <- aset (f_ipf t) pi fp ;;
  t1 <- dbl_loop (idb s - jd1 t) s i j jrow
          (Fst (f_iat t) ja1 ip1 (f_dt t) (f_dc t) (jd1 t) (jd2 t)) ;;
  iat1 <- ainc (f_iat t1) (i + 1) ;;
  if negb (jrow =? i) then
    pj <- aget iat1 (jrow + 1) ;;
    ja2 <- aset (f_ja t1) pj (i + offset) ;;
    ip2 <- aset (f_ipf t1) pj fp ;;
    iat2 <- ainc iat1 (jrow + 1) ;;
    Some (Fst iat2 ja2 ip2 (f_dt t1) (f_dc t1) (jd1 t1) (jd2 t1))
  else
    Some (Fst iat1 (f_ja t1) (f_ipf t1) (f_dt t1) (f_dc t1) (jd1 t1) (jd2 t1)).

(** cpp:270-298: rows and elements *)
Definition full_rows (offset dim : nat) (s : st) (t : fst_) : option fst_ :=
  for_loop dim 0 (fun i t =>
    lo <- aget (ia s) i ;;
    hi <- aget (ia s) (i + 1) ;;
    for_loop (hi - lo) lo (fun j t => full_elem offset s i j t) t) t.

(** cpp:250-314: Full_Format *)
Definition finish_full (offset dim : nat) (s : st) : option conv :=
  a0 <- aset (anew (dim + 1)) 0 0 ;;
  a1 <- aset a0 1 0 ;;
  iat <- for_loop (dim - 1) 1 (fun i a =>
           x <- aget a i ;; c <- aget (rc_tmp s) (i - 1) ;; aset a (i + 1) (x + c)) a1 ;;
  t <- full_rows offset dim s
         (Fst iat (anew (ncf s)) (anew (ncf s)) (anew (idbf s)) (anew (idbf s)) 0 0) ;;
  ia1 <- acopy (dim + 1) (fun x => x + offset) (f_iat t) (ia s) ;;
  Some (Conv ia1 (f_ja t) (f_ipf t) (f_dt t) (f_dc t) (ncf s) (idbf s)).

(** InitializeConverter (cpp:46-335), with [sorted] the result of std::sort on
    the entry list (cpp:101).  std::sort is not stable, so the theorems are
    about every sorted permutation of [entry_list].  The case nonzeros = 0
    (cpp:67-78) leaves all arrays NULL. *)
Definition initialize (hf : trifull) (offset dim : nat) (sorted : list entry) : option conv :=
  match sorted with
  | [] => Some (Conv [] [] [] [] [] 0 0)
  | e :: r =>
    let nz := length sorted in
    s1 <- first_entry hf e (init_st hf dim nz) ;;
    s2 <- entries_loop hf r s1 ;;
    s3 <- finish_ia dim s2 ;;
    match hf with
    | Triangular => finish_tri offset dim nz s3
    | Full => finish_full offset dim s3
    end
  end.

(** ConvertValues (cpp:337-372), for any type of numbers with an addition. *)
Section Values.
Variables (A : Type) (add : A -> A -> A).

Definition vget (a : list A) (i : nat) : option A := nth_error a i.
Definition vset (a : list A) (i : nat) (x : A) : option (list A) :=
  if i <? length a then Some (upd a i x) else None.

(** [a_compressed] is the caller's array of nonzeros_compressed numbers *)
Definition convert_values (v : conv) (a_triplet a_compressed : list A) : option (list A) :=
  a1 <- for_loop (v_nc v) 0 (fun i a =>
          p <- aget (v_ipf v) i ;; x <- vget a_triplet p ;; vset a i x) a_compressed ;;
  for_loop (v_nd v) 0 (fun i a =>
          q <- aget (v_dc v) i ;; p <- aget (v_dt v) i ;;
          x <- vget a_triplet p ;; y <- vget a q ;; vset a q (add y x)) a1.
End Values.
