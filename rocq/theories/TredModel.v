(** Model of src/Interfaces/IpTNLPReducer.cpp: a TNLP with some constraints and bounds left out and some variables fixed.

    The original TNLP is a record of operations on an arbitrary state W ([None]: the callback returned false); every call passes the
    arguments of the call to the reducer on, unless written down here. Numbers are of an arbitrary type V, they are only copied.
    eval_f, eval_grad_f, eval_h without values, get_variables_linearity, get_warm_start_iterate, intermediate_callback and the
    nonlinear variables are handed on unchanged and left out. Indices are integers. Results in [option]: None is an access outside of
    an array. Timing, leaks of memory and debug assertions are left out. *)
From Coq Require Import ZArith List Arith Bool.
Import ListNotations.

Inductive style := C_STYLE | FORTRAN_STYLE.
(** the offset of 405 *)
Definition offset (s : style) : Z := match s with FORTRAN_STYLE => 1 | C_STYLE => 0 end.

Record tnlp (W V : Type) := Tnlp {
  t_info : W -> option (nat * nat * nat * nat * style) * W;                    (* n, m, nnz_jac_g, nnz_h_lag, index_style *)
  t_bounds : W -> option (list V * list V * list V * list V) * W;              (* x_l, x_u, g_l, g_u *)
  t_scal : W -> option (V * option (list V) * option (list V)) * W;            (* obj_scaling, x_scaling, g_scaling; None: use_..._scaling is false *)
  t_glin : W -> option (list bool) * W;                                        (* get_constraints_linearity; true: LINEAR *)
  t_start : bool -> bool -> bool -> W -> option (list V * list V * list V * list V) * W;   (* init_x, init_z, init_lambda; x, z_L, z_U, lambda *)
  t_g : list V -> bool -> W -> option (list V) * W;                            (* eval_g: x, new_x *)
  t_jacs : W -> option (list Z * list Z) * W;                                  (* eval_jac_g, structure *)
  t_jacv : list V -> bool -> W -> option (list V) * W;                         (* eval_jac_g, values *)
  t_h : list V -> bool -> V -> list V -> bool -> W -> option (list V) * W;     (* eval_h: x, new_x, obj_factor, lambda, new_lambda; values *)
  t_fin : list V -> list V -> list V -> list V -> list V -> V -> W -> W        (* finalize_solution: x, z_L, z_U, g, lambda, obj_value *)
}.
Arguments t_info {W V}. Arguments t_bounds {W V}. Arguments t_scal {W V}. Arguments t_glin {W V}. Arguments t_start {W V}.
Arguments t_g {W V}. Arguments t_jacs {W V}. Arguments t_jacv {W V}. Arguments t_h {W V}. Arguments t_fin {W V}.

(** std::sort of integers, 38 *)
Fixpoint insert (a : Z) (l : list Z) : list Z :=
  match l with [] => [a] | b :: l' => if (a <=? b)%Z then a :: l else b :: insert a l' end.
Fixpoint isort (l : list Z) : list Z := match l with [] => [] | a :: l => insert a (isort l) end.

(** IpTNLPReducer.hpp 190-232; the arrays without the sentinel -1 at their end; [r_m]: m_reduced_, None: -1; [r_map]: g_keep_map_, None: -1;
    r_jskip: jac_g_skipped_, None: NULL *)
Record red := Red {
  r_g : list Z; r_xl : list Z; r_xu : list Z; r_fix : list Z;
  r_m : option nat; r_map : list (option nat); r_morig : nat; r_nzorig : nat; r_style : style; r_nred : nat; r_nskip : nat; r_jskip : option (list Z)
}.
(** the constructor, 15-70; the last five are not initialized there (any values) *)
Definition new_red (g xl xu fix_ : list Z) (junk : nat * nat * style * nat * nat) : red :=
  let '(mo, nzo, st, nr, ns) := junk in Red (isort g) (isort xl) (isort xu) (isort fix_) None [] mo nzo st nr ns None.

(** 126-135: g_keep_map_ for the constraints i, i+1, ...; the pointer into the sorted skip list moves on if it shows i *)
Fixpoint keep_map (i : Z) (m : nat) (skip : list Z) (count : nat) : list (option nat) :=
  match m with
  | O => []
  | S m => match skip with
           | a :: skip' => if (a =? i)%Z then None :: keep_map (i + 1) m skip' count else Some count :: keep_map (i + 1) m skip (S count)
           | [] => Some count :: keep_map (i + 1) m [] (S count)
           end
  end.
Definition n_kept (km : list (option nat)) : nat := length (filter (fun o => match o with Some _ => true | None => false end) km).
(** g_keep_map_[i]; outer None: outside of the array *)
Definition map_at (km : list (option nat)) (i : Z) : option (option nat) :=
  if (i <? 0)%Z then None else nth_error km (Z.to_nat i).
(** 149-157: note that iRow[i] is used without the offset *)
Fixpoint count_rows (km : list (option nat)) (ir : list Z) : option (nat * nat) :=
  match ir with
  | [] => Some (0, 0)
  | r :: ir => match map_at km r, count_rows km ir with
               | Some (Some _), Some (a, b) => Some (S a, b)
               | Some None, Some (a, b) => Some (a, S b)
               | _, _ => None
               end
  end.

Section Reducer.
Context {W V : Type}.
Variable T : tnlp W V.
Variables (zero huge mhuge : V).      (* 0., max, -max *)

(** get_nlp_info 82-170 *)
Definition get_info (w : W) (r : red) : option (option (nat * nat * nat * nat * style) * W * red) :=
  match t_info T w with
  | (None, w) => Some (None, w, r)
  | (Some (n, m, nzj, nzh, st), w) =>
      let r := Red (r_g r) (r_xl r) (r_xu r) (r_fix r) (r_m r) (r_map r) m nzj st (r_nred r) (r_nskip r) (r_jskip r) in
      match r_m r with
      | Some mr => Some (Some (n, mr, r_nred r, nzh, st), w, r)
      | None =>
          let sh := map (fun a => (a - offset st)%Z) in
          let km := keep_map 0 m (sh (r_g r)) 0 in
          let r1 := Red (sh (r_g r)) (sh (r_xl r)) (sh (r_xu r)) (sh (r_fix r)) (Some (n_kept km)) km m nzj st (r_nred r) (r_nskip r) (r_jskip r) in
          match t_jacs T w with
          | (None, w) => Some (None, w, r1)
          | (Some (ir, jc), w) =>
              match count_rows km ir with
              | None => None
              | Some (a, b) => Some (Some (n, n_kept km, a, nzh, st), w,
                  Red (r_g r1) (r_xl r1) (r_xu r1) (r_fix r1) (r_m r1) km m nzj st a b (r_jskip r1))
              end
          end
      end
  end.

(** 210-216 and in the other functions: out[g_keep_map_[i]] = v[i] *)
Fixpoint upd {X} (k : nat) (x : X) (l : list X) : option (list X) :=
  match k, l with
  | O, _ :: l => Some (x :: l)
  | S k, y :: l => match upd k x l with Some l => Some (y :: l) | None => None end
  | _, [] => None
  end.
Fixpoint gather {X} (km : list (option nat)) (v out : list X) : option (list X) :=
  match km, v with
  | [], _ => Some out
  | Some k :: km, x :: v => match upd k x out with Some out => gather km v out | None => None end
  | None :: km, _ :: v => gather km v out
  | _ :: _, [] => None
  end.
(** 484-495: lambda_orig *)
Fixpoint expand (km : list (option nat)) (lam : list V) : option (list V) :=
  match km with
  | [] => Some []
  | Some k :: km => match nth_error lam k, expand km lam with Some x, Some l => Some (x :: l) | _, _ => None end
  | None :: km => match expand km lam with Some l => Some (zero :: l) | None => None end
  end.
(** 207-228: one pass over the variables with three pointers; [xs]: x_start *)
Definition pop (s : list Z) (i : Z) : bool * list Z :=
  match s with a :: s' => if (a =? i)%Z then (true, s') else (false, s) | [] => (false, []) end.
Fixpoint edit_bounds (i : Z) (xl xu xs : list V) (sl su sf : list Z) : list V * list V :=
  match xl, xu with
  | l :: xl, u :: xu =>
      let (bl, sl) := pop sl i in
      let (bu, su) := pop su i in
      let (bf, sf) := pop sf i in
      let l := if bl then mhuge else l in
      let u := if bu then huge else u in
      let (xs0, xs') := match xs with x :: xs' => (x, xs') | [] => (zero, []) end in
      let l := if bf then xs0 else l in
      let u := if bf then xs0 else u in
      let (xl', xu') := edit_bounds (i + 1) xl xu xs' sl su sf in (l :: xl', u :: xu')
  | _, _ => ([], [])
  end.
(** get_bounds_info 172-245; [gl], [gu]: the arrays g_l, g_u before *)
Definition get_bounds (gl gu : list V) (w : W) (r : red) : option (option (list V * list V * list V * list V) * W) :=
  match t_bounds T w with
  | (None, w) => Some (None, w)
  | (Some (xl, xu, glo, guo), w) =>
      let go (xs : list V) w :=
        let (xl', xu') := edit_bounds 0 xl xu xs (r_xl r) (r_xu r) (r_fix r) in
        match gather (r_map r) glo gl, gather (r_map r) guo gu with
        | Some gl, Some gu => Some (Some (xl', xu', gl, gu), w)
        | _, _ => None
        end in
      match r_fix r with
      | [] => go [] w
      | _ => match t_start T true false false w with
             | (None, w) => Some (None, w)
             | (Some (xs, _, _, _), w) => go xs w
             end
      end
  end.
(** get_scaling_parameters 247-277 *)
Definition get_scaling (gs : list V) (w : W) (r : red) : option (option (V * option (list V) * option (list V)) * W) :=
  match t_scal T w with
  | (None, w) => Some (None, w)
  | (Some (o, xs, None), w) => Some (Some (o, xs, None), w)
  | (Some (o, xs, Some g), w) => match gather (r_map r) g gs with Some gs => Some (Some (o, xs, Some gs), w) | None => None end
  end.
(** get_constraints_linearity 287-312 *)
Definition get_linearity (out : list bool) (w : W) (r : red) : option (option (list bool) * W) :=
  match t_glin T w with
  | (None, w) => Some (None, w)
  | (Some l, w) => match gather (r_map r) l out with Some out => Some (Some out, w) | None => None end
  end.
(** get_starting_point 314-350 *)
Definition get_start (ix iz il : bool) (lam : list V) (w : W) (r : red) : option (option (list V * list V * list V * list V) * W) :=
  match t_start T ix iz il w with
  | (None, w) => Some (None, w)
  | (Some (x, zl, zu, lo), w) =>
      if il then match gather (r_map r) lo lam with Some lam => Some (Some (x, zl, zu, lam), w) | None => None end
      else Some (Some (x, zl, zu, lam), w)
  end.
(** eval_g 379-407 *)
Definition eval_g (x : list V) (new_x : bool) (g : list V) (w : W) (r : red) : option (option (list V) * W) :=
  match t_g T x new_x w with
  | (None, w) => Some (None, w)
  | (Some go, w) => match gather (r_map r) go g with Some g => Some (Some g, w) | None => None end
  end.
(** eval_jac_g 409-458, structure: entries in kept rows renumbered; positions of the others *)
Fixpoint split_rows (km : list (option nat)) (off i : Z) (ir jc : list Z) : option (list Z * list Z * list Z) :=
  match ir, jc with
  | r :: ir, c :: jc =>
      match map_at km (r - off), split_rows km off (i + 1) ir jc with
      | Some (Some k), Some (a, b, s) => Some ((Z.of_nat k + off)%Z :: a, c :: b, s)
      | Some None, Some (a, b, s) => Some (a, b, i :: s)
      | _, _ => None
      end
  | _, _ => Some ([], [], [])
  end.
Definition overwrite {X} (new old : list X) : option (list X) :=    (* the array old after writing new from its start *)
  if length new <=? length old then Some (new ++ skipn (length new) old) else None.
Definition eval_jac_structure (iRow jCol : list Z) (w : W) (r : red) : option (option (list Z * list Z) * W * red) :=
  let set j := Red (r_g r) (r_xl r) (r_xu r) (r_fix r) (r_m r) (r_map r) (r_morig r) (r_nzorig r) (r_style r) (r_nred r) (r_nskip r) j in
  match t_jacs T w with
  | (None, w) => Some (None, w, set None)
  | (Some (ir, jc), w) =>
      match split_rows (r_map r) (offset (r_style r)) 0 ir jc with
      | None => None
      | Some (a, b, s) =>
          match overwrite a iRow, overwrite b jCol, length s <=? r_nskip r + 1 with
          | Some iRow, Some jCol, true => Some (Some (iRow, jCol), w, set (Some (firstn (r_nskip r) s)))
          | _, _, _ => None
          end
      end
  end.
(** eval_jac_g 460-490, values *)
Fixpoint drop_at (i : Z) (s : list Z) (v : list V) : list V :=
  match v with
  | [] => []
  | x :: v => let (b, s) := pop s i in if b then drop_at (i + 1) s v else x :: drop_at (i + 1) s v
  end.
Definition eval_jac_values (x : list V) (new_x : bool) (values : list V) (w : W) (r : red) : option (option (list V) * W) :=
  match t_jacv T x new_x w with
  | (None, w) => Some (None, w)
  | (Some v, w) =>
      match r_jskip r with
      | None => None                      (* NULL is dereferenced *)
      | Some s => match overwrite (drop_at 0 s v) values with Some values => Some (Some values, w) | None => None end
      end
  end.
(** eval_h 460-505 with values *)
Definition eval_h (x : list V) (new_x : bool) (sigma : V) (lam : list V) (new_lam : bool) (w : W) (r : red) : option (option (list V) * W) :=
  match expand (r_map r) lam with
  | None => None
  | Some lo => Some (t_h T x new_x sigma lo new_lam w)
  end.
(** finalize_solution 507-549; the answer of eval_g is not looked at: [junk] is what g_orig holds if it failed *)
Definition finalize (junk : list V) (x zl zu lam : list V) (obj : V) (w : W) (r : red) : option W :=
  let (g, w) := t_g T x true w in
  match expand (r_map r) lam with
  | None => None
  | Some lo => Some (t_fin T x zl zu (match g with Some g => g | None => junk end) lo obj w)
  end.
End Reducer.
