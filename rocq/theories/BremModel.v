(** Model of src/Algorithm/IpNLPBoundsRemover.cpp: an NLP whose bounds on variables are turned into inequality constraints (used for
    inexact step computations).

    Vectors are lists of reals; an expansion matrix is the list of the positions of its columns (C25); a row of a Jacobian is the function
    from column to entry; compound vectors are appended lists. Failing evaluations, the Hessian (handed on with the first component of the
    multipliers) and the functions only handed on are left out. *)
From Coq Require Import Reals List Arith Bool.
Import ListNotations.
Open Scope R_scope.

Record problem := Problem {
  p_n : nat; p_xlp : list nat; p_xl : list R; p_xup : list nat; p_xu : list R;     (* variables; positions and values of the bounds *)
  p_nd : nat; p_dlp : list nat; p_dl : list R; p_dup : list nat; p_du : list R;    (* inequalities *)
  p_grad : list R -> nat -> R; p_c : list R -> list R; p_jc : list R -> list (nat -> R);
  p_d : list R -> list R; p_jd : list R -> list (nat -> R) }.

(** TransMultVector of an expansion matrix *)
Definition pick (x : list R) (pos : list nat) : list R := map (fun i => nth i x 0) pos.
(** a row of the transpose of an expansion matrix *)
Definition unit (i j : nat) : R := if Nat.eqb j i then 1 else 0.

(** GetSpaces 29-148, GetBoundsInformation 150-211, Eval_d 243-260, Eval_jac_d 262-280: the problem presented *)
Definition remove (P : problem) : problem :=
  let nl := length (p_xlp P) in let nu := length (p_xup P) in
  Problem (p_n P) [] [] [] []
    (p_nd P + nl + nu)%nat
    (p_dlp P ++ map (fun k => p_nd P + k)%nat (seq 0 nl)) (p_dl P ++ p_xl P)
    (p_dup P ++ map (fun k => p_nd P + nl + k)%nat (seq 0 nu)) (p_du P ++ p_xu P)
    (p_grad P) (p_c P) (p_jc P)
    (fun x => p_d P x ++ pick x (p_xlp P) ++ pick x (p_xup P))
    (fun x => p_jd P x ++ map unit (p_xlp P) ++ map unit (p_xup P)).

(** GetBoundsInformation 178-206: the check of the inequalities; [true]: no exception *)
Definition mult1 (pos : list nat) (n : nat) (old : nat -> R) : list R :=
  map (fun k => fold_left (fun a i => if Nat.eqb i k then a + 1 else a) pos (old k)) (seq 0 n).
Definition amax (l : list R) : R := fold_left (fun m v => Rmax m (Rabs v)) l 0.
Definition vmin (l : list R) : R := match l with [] => 0 | v :: l => fold_left Rmin l v end.
Definition check (allow : bool) (P : problem) : bool :=
  if negb (Nat.eqb (p_nd P) 0) && negb allow then
    let d := mult1 (p_dlp P) (p_nd P) (fun _ => 0) in
    let d := mult1 (p_dup P) (p_nd P) (fun k => nth k d 0) in
    if Req_EM_T (amax d) 1 then (if Req_EM_T (vmin d) 1 then true else false) else false
  else true.

(** FinalizeSolution 298-332: (y_d, z_L, z_U) for the original problem from the components of y_d *)
Definition finalize (yd yl yu : list R) : list R * list R * list R := (yd, map Ropp yl, yu).
(** GetStartingPoint 213-241: what the original NLP delivers as (y_d, z_L, z_U) becomes the components of y_d *)
Definition start (yd zl zu : list R) : list R * list R * list R := (yd, zl, zu).

(** GetScalingParameters 334-388: scaling factors of the inequalities from those of x and d of the original problem *)
Definition ones (n : nat) : list R := repeat 1 n.
Definition scaling (P : problem) (xs ds : option (list R)) : option (list R) :=
  match xs, ds with
  | None, None => None
  | _, _ => Some ((match ds with Some d => d | None => ones (p_nd P) end) ++
                  match xs with Some x => pick x (p_xlp P) ++ pick x (p_xup P)
                              | None => ones (length (p_xlp P)) ++ ones (length (p_xup P)) end)
  end.
