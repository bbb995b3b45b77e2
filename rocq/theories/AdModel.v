(** Model of TNLPAdapter (src/Interfaces/IpTNLPAdapter.cpp): the translation
    between the user's problem and the problem solved by the algorithm.
    Polymorphic in the number type.

    Simplifications: arrays are lists; element types of index arrays are [nat]
    (no overflow); debugging assertions, meta data, the derivative checker and
    quasi-Newton spaces are left out; [warm_start_same_structure] is "no", i.e.
    GetSpaces computes the structure; the dependency detector is a parameter
    (the sorted list it delivers). *)
From Coq Require Import List Bool Arith ZArith.
From Verif Require Import VecModel ExpModel.
Import ListNotations.

(** IpTNLPAdapter.hpp 41-49: FixedVariableTreatmentEnum *)
Inductive treatment := MAKE_PARAMETER | MAKE_PARAMETER_NODUAL | MAKE_CONSTRAINT | RELAX_BOUNDS.
Definition removing (t : treatment) : bool := match t with MAKE_PARAMETER | MAKE_PARAMETER_NODUAL => true | _ => false end.
Definition is_constraint (t : treatment) : bool := match t with MAKE_CONSTRAINT => true | _ => false end.
Definition is_parameter (t : treatment) : bool := match t with MAKE_PARAMETER => true | _ => false end.
Definition is_relax (t : treatment) : bool := match t with RELAX_BOUNDS => true | _ => false end.

(** THROW_EXCEPTION(INCONSISTENT_BOUNDS, ...), with the index in the message *)
Inductive bounds_error := BadVariable (i : nat) | BadConstraint (i : nat).

(** x_not_fixed_map (an entry that is never written is None), x_l_map, x_u_map,
    x_fixed_map_; the counters n_x_var, n_x_l, n_x_u, n_x_fixed_ are the lengths. *)
Record xmaps := XM { x_vars : list (option nat); x_lo : list nat; x_up : list nat; x_fix : list nat }.
(** c_map, d_map, d_l_map, d_u_map *)
Record gmaps := GM { g_c : list nat; g_d : list nat; g_lo : list nat; g_up : list nat }.

(** lines 1200-1260: the user's Jacobian entries selected for jac_c or jac_d:
    position in the user's array, row and column (Fortran style) *)
Record jentry := JE { je_src : nat; je_row : nat; je_col : nat }.

(** everything GetSpaces stores *)
Record adapter := AD {
  a_n : nat;                        (* n_full_x_ *)
  a_m : nat;                        (* n_full_g_ *)
  a_t : treatment;                  (* fixed_variable_treatment_ *)
  a_vars : option (list nat);       (* positions of P_x_full_x_, if IsValid *)
  a_nvar : nat;                     (* x_space_->Dim() *)
  a_xlo : list nat; a_xup : list nat;    (* P_x_x_L_, P_x_x_U_ *)
  a_fix : list nat;                 (* x_fixed_map_ *)
  a_c : list nat; a_d : list nat;   (* P_c_g_, P_d_g_ *)
  a_dlo : list nat; a_dup : list nat;    (* positions of pd_l_space_, pd_u_space_ *)
  a_jc : list jentry;               (* Jac_c_space_ and first part of jac_idx_map_ (without extra rows) *)
  a_jx : list (nat * nat);          (* the added rows of Jac_c_space_ *)
  a_jd : list jentry;               (* Jac_d_space_ and second part of jac_idx_map_ *)
  a_jfix : list jentry;             (* jac_fixed_idx_map_, jac_fixed_iRow_, jac_fixed_jCol_ *)
  a_h : list jentry                 (* Hess_lagrangian_space_ and h_idx_map_ (identity if NULL) *)
}.

Section Model.
Context {T : Type} (O : nops T).
Local Notation "x == y" := (teq O x y) (at level 70).
Local Notation "x > y" := (tlt O y x).
Local Notation "x < y" := (tlt O x y).

(** nlp_lower_bound_inf_, nlp_upper_bound_inf_ *)
Variables (minf pinf : T).

(** lines 476-545: one pass over the variables *)
Fixpoint classify_x (t : treatment) (i : nat) (xl xu : list T) (s : xmaps) : xmaps + bounds_error :=
  match xl, xu with
  | l :: xl, u :: xu =>
      let nvar := length (x_vars s) in
      if l == u then
        classify_x t (S i) xl xu
          (match t with
           | MAKE_PARAMETER | MAKE_PARAMETER_NODUAL => XM (x_vars s) (x_lo s) (x_up s) (x_fix s ++ [i])
           | MAKE_CONSTRAINT => XM (x_vars s ++ [Some i]) (x_lo s) (x_up s) (x_fix s ++ [i])
           | RELAX_BOUNDS => XM (x_vars s ++ [None]) (x_lo s ++ [nvar]) (x_up s ++ [nvar]) (x_fix s)
           end)
      else if l > u then inr (BadVariable i)
      else classify_x t (S i) xl xu
             (XM (x_vars s ++ [Some i])
                 (if l > minf then x_lo s ++ [nvar] else x_lo s)
                 (if u < pinf then x_up s ++ [nvar] else x_up s) (x_fix s))
  | _, _ => inl s
  end.

(** lines 580-626: one pass over the constraints *)
Fixpoint classify_g (i : nat) (gl gu : list T) (s : gmaps) : gmaps + bounds_error :=
  match gl, gu with
  | l :: gl, u :: gu =>
      let nd := length (g_d s) in
      if l == u then classify_g (S i) gl gu (GM (g_c s ++ [i]) (g_d s) (g_lo s) (g_up s))
      else if l > u then inr (BadConstraint i)
      else classify_g (S i) gl gu
             (GM (g_c s) (g_d s ++ [i]) (if l > minf then g_lo s ++ [nd] else g_lo s)
                 (if u < pinf then g_up s ++ [nd] else g_up s))
  | _, _ => inl s
  end.

(** lines 464-640: the loop "while( !done )"; the second round runs with
    RELAX_BOUNDS and is the last one *)
Definition classify_once (t : treatment) (xl xu gl gu : list T) : (xmaps * gmaps) + bounds_error :=
  match classify_x t 0 xl xu (XM [] [] [] []) with
  | inr e => inr e
  | inl sx => match classify_g 0 gl gu (GM [] [] [] []) with inr e => inr e | inl sg => inl (sx, sg) end
  end.
Definition classify (t : treatment) (xl xu gl gu : list T) : (treatment * xmaps * gmaps) + bounds_error :=
  match classify_once t xl xu gl gu with
  | inr e => inr e
  | inl (sx, sg) =>
      if is_relax t || (length (x_fix sx) =? 0)%nat || (length (g_c sg) <=? length (x_vars sx))%nat
         || (length (x_vars sx) =? 0)%nat
      then inl (t, sx, sg)
      else match classify_once RELAX_BOUNDS xl xu gl gu with
           | inr e => inr e
           | inl (sx, sg) => inl (RELAX_BOUNDS, sx, sg)
           end
  end.

(** lines 672-695: "Take the dependent constraints out"; [deps] is c_deps after
    sort(). [i] is the loop index, [c] the rest of c_map from position i on. *)
Fixpoint take_out (i : nat) (c deps : list nat) : list nat :=
  match deps with
  | [] => c                                            (* just copy the rest *)
  | d :: ds => match c with
               | [] => []
               | x :: c => if (i =? d)%nat then take_out (S i) c ds else x :: take_out (S i) c deps
               end
  end.
Definition remove_deps (c deps : list nat) : list nat :=
  match deps with [] => c | d :: _ => firstn d c ++ take_out d (skipn d c) deps end.

(** lines 1102-1114: index_style_ *)
Definition fortran (cstyle : bool) (k : nat) : nat := if cstyle then k + 1 else k.

Definition posof (p : list Z) (k : nat) : Z := nth k p (-1)%Z.
(** lines 1148-1188 and 1224-1254: [rowpos] are the compressed positions of
    P_c_g_ or P_d_g_, [colpos] those of P_x_full_x_ *)
Fixpoint select (rowpos : list Z) (colpos : option (list Z)) (k : nat) (trip : list (nat * nat)) : list jentry :=
  match trip with
  | [] => []
  | (r, c) :: trip =>
      let row := posof rowpos (r - 1) in
      match colpos with
      | Some cp =>
          let col := posof cp (c - 1) in
          if (negb (col =? -1) && negb (row =? -1))%Z
          then JE k (Z.to_nat (row + 1)) (Z.to_nat (col + 1)) :: select rowpos colpos (S k) trip
          else select rowpos colpos (S k) trip
      | None =>
          if negb (row =? -1)%Z then JE k (Z.to_nat (row + 1)) (c - 1 + 1) :: select rowpos colpos (S k) trip
          else select rowpos colpos (S k) trip
      end
  end.
(** lines 1165-1173: jac_fixed_*; only in the branch with P_x_full_x_ *)
Fixpoint select_fixed (cp : list Z) (k : nat) (trip : list (nat * nat)) : list jentry :=
  match trip with
  | [] => []
  | (r, c) :: trip =>
      if (posof cp (c - 1) =? -1)%Z then JE k r c :: select_fixed cp (S k) trip else select_fixed cp (S k) trip
  end.
(** lines 1296-1345: the Hessian *)
Fixpoint select_h (hpos : option (list Z)) (k : nat) (trip : list (nat * nat)) : list jentry :=
  match trip with
  | [] => []
  | (r, c) :: trip =>
      match hpos with
      | Some hp =>
          let row := posof hp (r - 1) in let col := posof hp (c - 1) in
          if (negb (row =? -1) && negb (col =? -1))%Z
          then JE k (Z.to_nat (row + 1)) (Z.to_nat (col + 1)) :: select_h hpos (S k) trip
          else select_h hpos (S k) trip
      | None => JE k (r - 1 + 1) (c - 1 + 1) :: select_h hpos (S k) trip
      end
  end.

(** GetSpaces, lines 326-1390 *)
Definition written (o : option nat) : nat := match o with Some i => i | None => 0 end.
Definition get_spaces (t : treatment) (cstyle : bool) (xl xu gl gu : list T) (deps : list nat)
    (jac hess : list (nat * nat)) : adapter + bounds_error :=
  match classify t xl xu gl gu with
  | inr e => inr e
  | inl (t, sx, sg) =>
      let n := length xl in let m := length gl in
      let nvar := length (x_vars sx) in
      let c := if (0 <? length (g_c sg))%nat then remove_deps (g_c sg) deps else g_c sg in
      let vars := if (0 <? length (x_fix sx))%nat && removing t then Some (map written (x_vars sx)) else None in
      let colpos := option_map (compressed_pos n) vars in
      let jac := map (fun p => (fortran cstyle (fst p), fortran cstyle (snd p))) jac in
      let hess := map (fun p => (fortran cstyle (fst p), fortran cstyle (snd p))) hess in
      inl (AD n m t vars nvar (x_lo sx) (x_up sx) (x_fix sx) c (g_d sg) (g_lo sg) (g_up sg)
             (select (compressed_pos m c) colpos 0 jac)
             (if removing t then [] else map (fun k => (length c + k + 1, nth k (x_fix sx) 0 + 1)) (seq 0 (length (x_fix sx))))
             (select (compressed_pos m (g_d sg)) colpos 0 jac)
             (match colpos with Some cp => if is_parameter t then select_fixed cp 0 jac else [] | None => [] end)
             (select_h colpos 0 hess))
  end.

(** GetBoundsInformation, lines 1392-1555 *)
Definition at_ (l : list T) (i : nat) : T := nth i l (t0 O).
Definition upd_at (l : list T) (i : nat) (v : T) : list T := upd i v l.
Definition tmax (a b : T) : T := if tlt O a b then b else a.
(** lines 1424-1436; [relax] is Max(1e-8, bound_relax_factor_). The loop counts
    to n_x_fixed_ and uses its counter as variable index. *)
Fixpoint relax_loop (relax : T) (k i : nat) (xl xu : list T) : list T * list T :=
  match k with
  | 0%nat => (xl, xu)
  | S k =>
      let l := at_ xl i in let u := at_ xu i in
      if l == u
      then relax_loop relax k (S i) (upd_at xl i (tsub O l (tmul O relax (tmax (t1 O) (tabs O l)))))
                                (upd_at xu i (tadd O u (tmul O relax (tmax (t1 O) (tabs O u)))))
      else relax_loop relax k (S i) xl xu
  end.
(** index of a variable of the algorithm in the user's space *)
Definition full_index (a : adapter) (k : nat) : nat :=
  match a_vars a with Some v => nth k v 0%nat | None => k end.
Record bounds := BD { b_xl : list T; b_xu : list T; b_rhs : list T; b_dl : list T; b_du : list T }.
Definition get_bounds (a : adapter) (relax : T) (xl xu gl gu : list T) : bounds :=
  let '(xl, xu) := if is_relax (a_t a) then relax_loop relax (length (a_fix a)) 0 xl xu else (xl, xu) in
  BD (map (fun k => at_ xl (full_index a k)) (a_xlo a))
     (map (fun k => at_ xu (full_index a k)) (a_xup a))
     (map (at_ gl) (a_c a) ++ (if is_constraint (a_t a) then map (at_ xl) (a_fix a) else []))
     (map (fun k => at_ gl (nth k (a_d a) 0%nat)) (a_dlo a))
     (map (fun k => at_ gu (nth k (a_d a) 0%nat)) (a_dup a)).
(** the fixed values put into full_x_: lines 490, 1416-1423 *)
Fixpoint put (idx : list nat) (vals : list T) (x : list T) : list T :=
  match idx, vals with i :: idx, v :: vals => put idx vals (upd i v x) | _, _ => x end.
Definition fix_values (a : adapter) (xl full_x : list T) : list T :=
  if removing (a_t a) then put (a_fix a) (map (at_ xl) (a_fix a)) full_x else full_x.

(** Dense vectors as the adapter sees them: IsHomogeneous()/Scalar() or Values() *)
Inductive xvec := Homog (s : T) | Dense (l : list T).

(** ResortX, lines 2400-2460 *)
Definition resort_x (a : adapter) (usefixed : bool) (full_x : list T) (x : xvec) : list T :=
  match a_vars a with
  | Some v =>
      let pos := compressed_pos (a_n a) v in
      map (fun i => let idx := posof pos i in
                    if negb (idx =? -1)%Z
                    then match x with Homog s => s | Dense l => at_ l (Z.to_nat idx) end
                    else if usefixed then at_ full_x i else t0 O) (seq 0 (a_n a))
  | None => match x with Homog s => repeat s (a_n a) | Dense l => firstn (a_n a) l end
  end.

(** ResortG, lines 2462-2520: writes into g_orig *)
Definition vat (v : xvec) (i : nat) : T := match v with Homog s => s | Dense l => at_ l i end.
Definition resort_g (a : adapter) (correct : bool) (rhs : list T) (c d : xvec) (dimd : nat) (g : list T) : list T :=
  let g := put (a_c a) (map (fun i => if correct then tadd O (vat c i) (at_ rhs i) else vat c i) (seq 0 (length (a_c a)))) g in
  put (firstn dimd (a_d a)) (map (vat d) (seq 0 dimd)) g.

(** ResortBounds, lines 2522-2650, one side: [pos] is P_x_x_L_ or P_x_x_U_ *)
Definition resort_bound (a : adapter) (pos : list nat) (z : xvec) (junk : list T) : list T :=
  let base := if (length pos <? a_n a)%nat then repeat (t0 O) (a_n a) else junk in
  put (map (full_index a) pos) (map (vat z) (seq 0 (length pos))) base.

(** Starting point, lines 1557-1700: x, y_c, y_d, z_L, z_U from the user's arrays *)
Definition start_x (a : adapter) (full : list T) : list T :=
  match a_vars a with Some v => map (at_ full) v | None => firstn (a_nvar a) full end.
Definition start_yc (a : adapter) (lam zl zu : list T) : list T :=
  map (at_ lam) (a_c a) ++
  (if is_constraint (a_t a) then map (fun i => tsub O (at_ zu i) (at_ zl i)) (a_fix a) else []).
Definition start_yd (a : adapter) (lam : list T) : list T := map (at_ lam) (a_d a).
Definition start_z (a : adapter) (pos : list nat) (z : list T) : list T := map (fun k => at_ z (full_index a k)) pos.

(** Values of the constraint vectors, lines 1823-1850 and 1890-1906 *)
Definition c_values (a : adapter) (rhs full_g full_x : list T) : list T :=
  map (fun i => tsub O (at_ full_g (nth i (a_c a) 0%nat)) (at_ rhs i)) (seq 0 (length (a_c a))) ++
  (if is_constraint (a_t a)
   then map (fun i => tsub O (at_ full_x (nth i (a_fix a) 0%nat)) (at_ rhs (length (a_c a) + i))) (seq 0 (length (a_fix a)))
   else []).
Definition d_values' (a : adapter) (full_g : list T) : list T := map (at_ full_g) (a_d a).
(** lines 1866-1880, 1920-1930, 1960-1990: matrix values *)
Definition jac_c_values (a : adapter) (jac : list T) : list T :=
  map (fun e => at_ jac (je_src e)) (a_jc a) ++
  (if is_constraint (a_t a) then repeat (t1 O) (length (a_fix a)) else []).
Definition jac_d_values (a : adapter) (jac : list T) : list T := map (fun e => at_ jac (je_src e)) (a_jd a).
Definition h_values (a : adapter) (h : list T) : list T := map (fun e => at_ h (je_src e)) (a_h a).
Definition grad_values (a : adapter) (g : list T) : list T :=
  match a_vars a with Some v => map (at_ g) v | None => g end.

(** ResortBoundMultipliers, lines 2652-2790: for the fixed variables, after
    ResortBounds. [grad], [jac]: results of eval_grad_f and eval_jac_g *)
Definition bound_mult_constraint (a : adapter) (yc : xvec) (dimc : nat) (z : list T * list T) : list T * list T :=
  let k0 := (dimc - length (a_fix a))%nat in
  let v i := vat yc (k0 + i)%nat in
  (put (a_fix a) (map (fun i => tmax (t0 O) (topp O (v i))) (seq 0 (length (a_fix a)))) (fst z),
   put (a_fix a) (map (fun i => tmax (t0 O) (v i)) (seq 0 (length (a_fix a)))) (snd z)).
Fixpoint add_fixed (a : adapter) (cpos dpos : list Z) (jac : list T) (yc yd : xvec) (es : list jentry) (mult : list T) : list T :=
  match es with
  | [] => mult
  | e :: es =>
      let row := (je_row e - 1)%nat in let col := (je_col e - 1)%nat in
      let lambda := if negb (posof cpos row =? -1)%Z then vat yc (Z.to_nat (posof cpos row))
                    else if negb (posof dpos row =? -1)%Z then vat yd (Z.to_nat (posof dpos row))
                    else t0 O in
      add_fixed a cpos dpos jac yc yd es
        (upd col (tadd O (at_ mult col) (tmul O lambda (at_ jac (je_src e)))) mult)
  end.
Definition bound_mult_parameter (a : adapter) (grad jac : list T) (yc yd : xvec) (z : list T * list T) : list T * list T :=
  let mult := add_fixed a (compressed_pos (a_m a) (a_c a)) (compressed_pos (a_m a) (a_d a)) jac yc yd (a_jfix a) grad in
  (put (a_fix a) (map (fun i => tmax (t0 O) (at_ mult i)) (a_fix a)) (fst z),
   put (a_fix a) (map (fun i => tmax (t0 O) (topp O (at_ mult i))) (a_fix a)) (snd z)).
End Model.
Arguments Homog {T}. Arguments Dense {T}.
Arguments BD {T}. Arguments b_xl {T}. Arguments b_xu {T}. Arguments b_rhs {T}. Arguments b_dl {T}. Arguments b_du {T}.
