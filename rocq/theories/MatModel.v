(** Model of the matrix classes of src/LinAlg: GenTMatrix, SymTMatrix, DiagMatrix,
    IdentityMatrix, ZeroMatrix, ZeroSymMatrix, ExpansionMatrix, ScaledMatrix,
    SymScaledMatrix, SumMatrix, SumSymMatrix, CompoundMatrix, CompoundSymMatrix,
    TransposeMatrix, ExpandedMultiVectorMatrix, MultiVectorMatrix and
    LowRankUpdateSymMatrix, with their matrix-vector products, fused operations and
    row/column norms. Built on the model of vectors (VecModel) and of
    expansion matrices (ExpModel). Polymorphic in the number type.

    [None] is undefined behaviour: a static_cast to the wrong class, a null
    dereference, an index outside of an array; for the norms it also stands for
    the exception UNIMPLEMENTED_LINALG_METHOD_CALLED.

    Simplifications: the operand and the target of a product are different
    objects; all blocks, terms and values that a matrix needs have been set unless
    the code tests for it (a block of a compound matrix may be missing, a row of an
    ExpandedMultiVectorMatrix too); scaling vectors of a Scaled matrix are those
    stored in its space (already inverted if requested); DBG_ASSERTs are not
    executed; HasValidNumbers caches are not in this file. Reads of the values of
    a homogeneous DenseVector through the const pointer do not occur in this file. *)
From Coq Require Import List Bool Arith.
From Verif Require Import VecModel VecSpec ExpModel.
Import ListNotations.

(** for( k = 0; k < n; k++ ) with a body that may be undefined *)
Fixpoint loop {A} (n : nat) (f : nat -> A -> option A) (a : A) : option A :=
  match n with
  | 0 => Some a
  | S k => match loop k f a with Some b => f k b | None => None end
  end.
Definition obind {A B} (o : option A) (f : A -> option B) : option B :=
  match o with Some a => f a | None => None end.

Section Model.
Context {T : Type} (O : nops T).
Local Notation "x + y" := (tadd O x y).
Local Notation "x * y" := (tmul O x y).
Local Notation "x =? y" := (teq O x y).
(** content of freshly allocated arrays and scalars *)
Variables (junk : nat -> list T) (jscal : T).

(** ** Vector operations used below, for dense and compound vectors *)
Definition v_scal (a : T) : vec T -> vec T := lift1 (fun _ => d_scal O a).
Definition v_set (a : T) : vec T -> vec T := lift1 (fun _ => d_set a).
Definition v_copy (x y : vec T) : vec T := lift2 (fun _ => d_copy) x y.
Definition v_mul (x y : vec T) : vec T := lift2 (d_mul O) x y.
Definition v_div (x y : vec T) : vec T := lift2 (d_div O) x y.
Definition v_emax (x y : vec T) : vec T := lift2 (d_emax O) x y.
Definition v_abs : vec T -> vec T := lift1 (d_abs O).
Definition v_axpy (a : T) (x y : vec T) : vec T := lift2 (fun n => d_axpy O n a) x y.
(** IpVector.hpp: AddOneVector(a, x, c) = AddTwoVectors(a, x, 0., x, c) *)
Definition v_addone (a : T) (x : vec T) (c : T) (y : vec T) : vec T :=
  lift3 (fun n v1 v2 => d_addtwo O n (junk n) a false v1 (t0 O) false v2 c) x x y.
(** AddVectorQuotient(a, z, s, c) *)
Definition v_addquot (a : T) (z s : vec T) (c : T) (y : vec T) : vec T :=
  lift3 (fun n z s => d_addquot O n (junk n) a z s c) z s y.
(** MakeNew(): a vector of the same space without values *)
Definition v_makenew (y : vec T) : vec T := lift1 (fun n _ => d_new O n jscal) y.
(** VectorSpace::MakeNew() *)
Fixpoint v_new (s : space) : vec T :=
  match s with SD n => Dense n (d_new O n jscal) | SC l => Comp (map v_new l) end.

(** "Take care of the y part of the addition" *)
Definition yscale (beta : T) (y : vec T) : vec T :=
  if negb (beta =? t0 O) then v_scal beta y else v_set (t0 O) y.

(** array access with the bounds checked *)
Definition aget (l : list T) (i : nat) : option T := nth_error l i.
Definition aput (l : list T) (i : nat) (a : T) : option (list T) :=
  if Nat.ltb i (length l) then Some (upd i a l) else None.
(** access with a 1-based index *)
Definition get1 (l : list T) (i : nat) : option T := match i with 0 => None | S i => aget l i end.
Definition add1 (l : list T) (i : nat) (a : T) : option (list T) :=
  match i with 0 => None | S i => obind (aget l i) (fun u => aput l i (u + a)) end.
Definition max1 (l : list T) (i : nat) (a : T) : option (list T) :=
  match i with 0 => None | S i => obind (aget l i) (fun u => aput l i (tmax O u a)) end.

(** ** Matrices *)
Inductive mat :=
| GenT (nr nc : nat) (ir jc : list nat) (vals : list T)       (* 1-based row and column indices *)
| SymT (n : nat) (ir jc : list nat) (vals : list T)
| Diag (d : vec T)
| Ident (n : nat) (factor : T)
| ZeroM (nr nc : nat)
| ZeroSym (n : nat)
| Expan (nr : nat) (pos : list nat)
| Scaled (r : option (vec T)) (m : mat) (c : option (vec T))
| SymScaled (rc : option (vec T)) (m : mat)
| Sum (nr nc k : nat) (f : nat -> T) (t : nat -> mat)
| SumSym (n k : nat) (f : nat -> T) (t : nat -> mat)
(* numbers of rows/columns of the blocks, block spaces set, blocks set *)
| Compound (brs bcs : list nat) (sp : nat -> nat -> bool) (c : nat -> nat -> option mat)
| CompoundSym (bd : list nat) (c : nat -> nat -> option mat)
| Transp (m : mat)
| ExpMV (k : nat) (vecs : nat -> option (vec T)) (rs : space) (nc : nat) (P : option (nat * list nat))
| MultiVec (nr k : nat) (vecs : nat -> vec T)
| LowRank (n : nat) (D : vec T) (V U : option (nat * (nat -> vec T))) (lrs : space) (P : option mat) (reduced : bool).

(** NRows() and NCols() *)
Fixpoint nrows (m : mat) : nat :=
  match m with
  | GenT nr _ _ _ _ => nr | SymT n _ _ _ => n | Diag d => dim d | Ident n _ => n
  | ZeroM nr _ => nr | ZeroSym n => n | Expan nr _ => nr
  | Scaled _ m _ => nrows m | SymScaled _ m => nrows m
  | Sum nr _ _ _ _ => nr | SumSym n _ _ _ => n
  | Compound brs _ _ _ => list_sum brs | CompoundSym bd _ => list_sum bd
  | Transp m => ncols m | ExpMV k _ _ _ _ => k | MultiVec nr _ _ => nr | LowRank n _ _ _ _ _ _ => n
  end
with ncols (m : mat) : nat :=
  match m with
  | GenT _ nc _ _ _ => nc | SymT n _ _ _ => n | Diag d => dim d | Ident n _ => n
  | ZeroM _ nc => nc | ZeroSym n => n | Expan _ pos => length pos
  | Scaled _ m _ => ncols m | SymScaled _ m => ncols m
  | Sum _ nc _ _ _ => nc | SumSym n _ _ _ => n
  | Compound _ bcs _ _ => list_sum bcs | CompoundSym bd _ => list_sum bd
  | Transp m => nrows m | ExpMV _ _ _ nc _ => nc | MultiVec _ k _ => k | LowRank n _ _ _ _ _ _ => n
  end.

(** IpGenTMatrix.cpp 41-104 (MultVectorImpl), 106-167 (TransMultVectorImpl, with the
    two index arrays exchanged): [ir] indexes the target, [jc] the operand. *)
Fixpoint gent_hom (a : T) (ir : list nat) (vals : list T) (y : list T) : option (list T) :=
  match vals with
  | [] => Some y
  | v :: vals => match ir with
                 | i :: ir => obind (add1 y i (a * v)) (gent_hom a ir vals)
                 | [] => None
                 end
  end.
Fixpoint gent_arr (alpha : T) (ir jc : list nat) (vals : list T) (x y : list T) : option (list T) :=
  match vals with
  | [] => Some y
  | v :: vals =>
      match ir, jc with
      | i :: ir, j :: jc => obind (get1 x j) (fun xj => obind (add1 y i ((alpha * v) * xj)) (gent_arr alpha ir jc vals x))
      | _, _ => None
      end
  end.
Definition gent_mult (ir jc : list nat) (vals : list T) (alpha : T) (x : vec T) (beta : T) (y : vec T) : option (vec T) :=
  let y := yscale beta y in
  match vals with
  | [] => Some y
  | _ =>
      match x, y with
      | Dense _ dx, Dense n dy =>
          let w := d_values n (junk n) dy in
          let r := if hom dx then gent_hom (alpha * scal dx) ir vals (vlist w)
                   else gent_arr alpha ir jc vals (vlist dx) (vlist w) in
          obind r (fun l => Some (Dense n (with_values w l)))
      | _, _ => None
      end
  end.

(** IpSymTMatrix.cpp 44-113 *)
Fixpoint symt_hom (a : T) (ir jc : list nat) (vals : list T) (y : list T) : option (list T) :=
  match vals with
  | [] => Some y
  | v :: vals =>
      match ir, jc with
      | i :: ir, j :: jc =>
          obind (add1 y i (a * v)) (fun y =>
          obind (if negb (Nat.eqb i j) then add1 y j (a * v) else Some y) (fun y => symt_hom a ir jc vals y))
      | _, _ => None
      end
  end.
Fixpoint symt_arr (alpha : T) (ir jc : list nat) (vals : list T) (x y : list T) : option (list T) :=
  match vals with
  | [] => Some y
  | v :: vals =>
      match ir, jc with
      | i :: ir, j :: jc =>
          obind (get1 x j) (fun xj => obind (add1 y i ((alpha * v) * xj)) (fun y =>
          obind (if negb (Nat.eqb i j) then obind (get1 x i) (fun xi => add1 y j ((alpha * v) * xi)) else Some y)
                (fun y => symt_arr alpha ir jc vals x y)))
      | _, _ => None
      end
  end.
Definition symt_mult (ir jc : list nat) (vals : list T) (alpha : T) (x : vec T) (beta : T) (y : vec T) : option (vec T) :=
  let y := yscale beta y in
  match x, y with
  | Dense _ dx, Dense n dy =>
      let w := d_values n (junk n) dy in
      let r := if hom dx then symt_hom (alpha * scal dx) ir jc vals (vlist w)
               else symt_arr alpha ir jc vals (vlist dx) (vlist w) in
      obind r (fun l => Some (Dense n (with_values w l)))
  | _, _ => None
  end.

(** IpExpansionMatrix.cpp, see ExpModel *)
Definition exp_mult (nr : nat) (pos : list nat) (tr : bool) (alpha : T) (x : vec T) (beta : T) (y : vec T) : option (vec T) :=
  match x, y with
  | Dense _ dx, Dense n dy =>
      Some (Dense n (if tr then e_trans O pos (junk n) alpha dx beta dy else e_mult O nr pos (junk n) alpha dx beta dy))
  | _, _ => None
  end.

(** IpDiagMatrix.cpp 21-50 *)
Definition diag_mult (d : vec T) (alpha : T) (x : vec T) (beta : T) (y : vec T) : vec T :=
  let y := yscale beta y in
  v_axpy alpha (v_mul d (v_copy x (v_makenew y))) y.

(** ElementWiseMultiply with an optional vector *)
Definition opt_mul (s : option (vec T)) (v : vec T) : vec T := match s with Some s => v_mul s v | None => v end.

(** x[i] of a dense vector *)
Definition delem (d : dvec T) (i : nat) : option T := if hom d then Some (scal d) else aget (vlist d) i.

(** IpMultiVectorMatrix.cpp 52-91 *)
Definition mv_mult (k : nat) (vecs : nat -> vec T) (alpha : T) (x : vec T) (beta : T) (y : vec T) : option (vec T) :=
  match x with
  | Dense _ dx =>
      loop k (fun i y => obind (delem dx i) (fun xi => Some (v_addone (alpha * xi) (vecs i) (t1 O) y))) (yscale beta y)
  | Comp _ => None
  end.
(** IpMultiVectorMatrix.cpp 93-125 *)
Definition mv_trans (k : nat) (vecs : nat -> vec T) (alpha : T) (x : vec T) (beta : T) (y : vec T) : option (vec T) :=
  match y with
  | Dense n dy =>
      let w := d_values n (junk n) dy in
      obind (loop k (fun i l => obind (aget l i) (fun u =>
                 aput l i (if negb (beta =? t0 O) then alpha * v_dot O x (vecs i) + beta * u else alpha * v_dot O x (vecs i)))) (vlist w))
            (fun l => Some (Dense n (with_values w l)))
  | Comp _ => None
  end.
(** IpMultiVectorMatrix.cpp 127-160: LRMultVector *)
Definition mv_lr (k : nat) (vecs : nat -> vec T) (alpha : T) (x : vec T) (beta : T) (y : vec T) : option (vec T) :=
  loop k (fun i y => Some (v_addone (alpha * v_dot O x (vecs i)) (vecs i) (t1 O) y)) (yscale beta y).

(** IpExpandedMultiVectorMatrix.cpp 38-99 TransMultVectorImpl *)
Definition emv_trans (k : nat) (vecs : nat -> option (vec T)) (rs : space) (P : option (nat * list nat))
    (alpha : T) (x : vec T) (beta : T) (y : vec T) : option (vec T) :=
  let y_tmp := match P with Some _ => v_set (t0 O) (v_new rs) | None => yscale beta y end in
  match x with
  | Dense _ dx =>
      obind (loop k (fun i y => match vecs i with
                                | Some v => obind (delem dx i) (fun xi => Some (v_addone (alpha * xi) v (t1 O) y))
                                | None => Some y
                                end) y_tmp)
            (fun y_tmp => match P with
                          | Some (nr, pos) => exp_mult nr pos false (t1 O) y_tmp beta y
                          | None => Some y_tmp
                          end)
  | Comp _ => None
  end.
(** IpExpandedMultiVectorMatrix.cpp 101-159 MultVectorImpl *)
Definition emv_mult (k : nat) (vecs : nat -> option (vec T)) (rs : space) (P : option (nat * list nat))
    (alpha : T) (x : vec T) (beta : T) (y : vec T) : option (vec T) :=
  obind (match P with Some (nr, pos) => exp_mult nr pos true (t1 O) x (t0 O) (v_new rs) | None => Some x end) (fun x_tmp =>
  match y with
  | Dense n dy =>
      let w := d_values n (junk n) dy in
      obind (loop k (fun i l => obind (aget l i) (fun u =>
               aput l i (if negb (beta =? t0 O)
                         then match vecs i with Some v => alpha * v_dot O x_tmp v + beta * u | None => u * beta end
                         else match vecs i with Some v => alpha * v_dot O x_tmp v | None => t0 O end))) (vlist w))
            (fun l => Some (Dense n (with_values w l)))
  | Comp _ => None
  end).

(** comp_x->GetComp(i) if x is a compound vector of nb components, otherwise x itself.
    In MultVectorImpl the operand is only used as a whole if nb = 1 ([strict]). *)
Definition part (strict : bool) (nb i : nat) (x : vec T) : option (vec T) :=
  match x with
  | Comp l => if Nat.eqb (length l) nb then nth_error l i else if strict && negb (Nat.eqb nb 1) then None else Some x
  | Dense _ _ => if strict && negb (Nat.eqb nb 1) then None else Some x
  end.
(** the target y_i, and y after y_i has been changed to [v] *)
Definition set_part (nb i : nat) (y v : vec T) : vec T :=
  match y with
  | Comp l => if Nat.eqb (length l) nb then Comp (upd i v l) else v
  | Dense _ _ => v
  end.
(** y_i.Op(...) for component i of the target *)
Definition on_part (nb i : nat) (f : vec T -> option (vec T)) (y : vec T) : option (vec T) :=
  obind (part false nb i y) (fun yi => obind (f yi) (fun v => Some (set_part nb i y v))).
(** the same with CompoundVector pointers obtained by static_cast *)
Definition cpart (i : nat) (x : vec T) : option (vec T) := match x with Comp l => nth_error l i | Dense _ _ => None end.
Definition on_cpart (i : nat) (f : vec T -> option (vec T)) (y : vec T) : option (vec T) :=
  match y with
  | Comp l => obind (nth_error l i) (fun yi => obind (f yi) (fun v => Some (Comp (upd i v l))))
  | Dense _ _ => None
  end.

(** IpCompoundMatrix.cpp 862-873: diagonal_, computed from the component spaces *)
Definition diagonal (nr nc : nat) (sp : nat -> nat -> bool) : bool :=
  forallb (fun i => forallb (fun j => if Nat.eqb i j then sp i j else negb (sp i j)) (seq 0 nc)) (seq 0 nr).

(** MultVectorImpl ([tr] = false) and TransMultVectorImpl ([tr] = true). The symmetric
    classes inherit TransMultVectorImpl from SymMatrix (IpSymMatrix.hpp 54-63), which calls
    MultVector. *)
Fixpoint mult (m : mat) (tr : bool) (alpha : T) (x : vec T) (beta : T) (y : vec T) {struct m} : option (vec T) :=
  match m with
  | GenT _ _ ir jc vals => if tr then gent_mult jc ir vals alpha x beta y else gent_mult ir jc vals alpha x beta y
  | SymT _ ir jc vals => symt_mult ir jc vals alpha x beta y
  | Diag d => Some (diag_mult d alpha x beta y)
  | Ident _ factor => Some (v_addone (alpha * factor) x beta y)       (* IpIdentityMatrix.cpp 28-41 *)
  | ZeroM _ _ | ZeroSym _ => Some (yscale beta y)        (* IpZeroMatrix.cpp 21-65, IpZeroSymMatrix.cpp 21-65 *)
  | Expan nr pos => exp_mult nr pos tr alpha x beta y
  | Scaled r m c =>                                      (* IpScaledMatrix.cpp 22-58, 60-96 *)
      let y := yscale beta y in
      let tmp_x := opt_mul (if tr then r else c) (v_copy x (v_makenew x)) in
      obind (mult m tr (t1 O) tmp_x (t0 O) (v_makenew y)) (fun tmp_y =>
      Some (v_axpy alpha (opt_mul (if tr then c else r) tmp_y) y))
  | SymScaled rc m =>                                    (* IpSymScaledMatrix.cpp 22-58 *)
      let y := yscale beta y in
      obind (mult m false (t1 O) (opt_mul rc (v_copy x (v_makenew x))) (t0 O) (v_makenew y)) (fun tmp_y =>
      Some (v_axpy alpha (opt_mul rc tmp_y) y))
  | Sum _ _ k f t =>                                     (* IpSumMatrix.cpp 54-81, 83-110 *)
      loop k (fun i y => mult (t i) tr (alpha * f i) x (t1 O) y) (yscale beta y)
  | SumSym _ k f t =>                                    (* IpSumSymMatrix.cpp 54-81 *)
      loop k (fun i y => mult (t i) false (alpha * f i) x (t1 O) y) (yscale beta y)
  | Compound brs bcs sp c =>                             (* IpCompoundMatrix.cpp 79-175, 177-270 *)
      let nr := length brs in let nc := length bcs in
      let diag := diagonal nr nc sp in
      let nby := if tr then nc else nr in let nbx := if tr then nr else nc in
      loop nby (fun i y =>
        loop nbx (fun j y =>
          let run blk := obind (part (negb tr) nbx j x) (fun xj => on_part nby i (fun yi => mult blk tr alpha xj (t1 O) yi) y) in
          match (if tr then c j i else c i j) with
          | Some blk => if diag && negb (Nat.eqb i j) then Some y else run blk
          | None => if diag && (Nat.eqb i j) then None else Some y
          end) y) (yscale beta y)
  | CompoundSym bd c =>                                  (* IpCompoundSymMatrix.cpp 81-165 *)
      let nb := length bd in
      match x, y with
      | Comp _, Comp _ =>
          loop nb (fun i y =>
            obind (loop (S i) (fun j y =>
                     match c i j with
                     | Some blk => obind (cpart j x) (fun xj => on_cpart i (fun yi => mult blk false alpha xj (t1 O) yi) y)
                     | None => Some y
                     end) y) (fun y =>
            loop (nb - S i) (fun d y =>
                     let j := (S i + d)%nat in
                     match c j i with
                     | Some blk => obind (cpart j x) (fun xj => on_cpart i (fun yi => mult blk true alpha xj (t1 O) yi) y)
                     | None => Some y
                     end) y)) (yscale beta y)
      | _, _ => None
      end
  | Transp m => mult m (negb tr) alpha x beta y          (* IpTransposeMatrix.hpp 40-62 *)
  | ExpMV k vecs rs _ P => if tr then emv_trans k vecs rs P alpha x beta y else emv_mult k vecs rs P alpha x beta y
  | MultiVec _ k vecs => if tr then mv_trans k vecs alpha x beta y else mv_mult k vecs alpha x beta y
  | LowRank _ D V U lrs P reduced =>                     (* IpLowRankUpdateSymMatrix.cpp 26-131 *)
      let upd_lr (W : option (nat * (nat -> vec T))) a x b y :=
        match W with Some (k, vecs) => mv_lr k vecs a x b y | None => Some y end in
      match P with
      | None =>
          let y := if negb (beta =? t0 O) then v_addone alpha (v_mul D (v_copy x (v_makenew x))) beta y
                   else v_mul D (v_addone alpha x (t0 O) y) in
          obind (upd_lr V alpha x (t1 O) y) (fun y => upd_lr U (topp O alpha) x (t1 O) y)
      | Some P =>
          if reduced then
            obind (mult P true (t1 O) x (t0 O) (v_new lrs)) (fun small_x =>
            let small_y := v_mul D (v_copy small_x (v_new lrs)) in
            obind (upd_lr V (t1 O) small_x (t1 O) small_y) (fun small_y =>
            obind (upd_lr U (tm1 O) small_x (t1 O) small_y) (fun small_y =>
            mult P false alpha small_y beta y)))
          else
            let y := v_addone alpha (v_mul D (v_copy x (v_makenew x))) beta y in
            obind (mult P true (t1 O) x (t0 O) (v_new lrs)) (fun small_x =>
            obind (match V with
                   | Some (k, vecs) => mv_lr k vecs (t1 O) small_x (t0 O) (v_new lrs)
                   | None => Some (v_set (t0 O) (v_new lrs))
                   end) (fun small_y =>
            obind (upd_lr U (tm1 O) small_x (t1 O) small_y) (fun small_y =>
            mult P false alpha small_y (t1 O) y)))
      end
  end.

(** ** Fused operations *)
(** IpMatrix.cpp 34-44: X <- X + alpha M S^-1 Z, default implementation (also
    IpScaledMatrix.cpp, AddMSinvZImpl) *)
Definition dflt_addmsinvz (m : mat) (alpha : T) (s z x : vec T) : option (vec T) :=
  mult m false alpha (v_addquot (t1 O) z s (t0 O) (v_makenew s)) (t1 O) x.
(** IpMatrix.cpp 46-62: X <- S^-1 (r + alpha Z M^T d) *)
Definition dflt_sinv (m : mat) (alpha : T) (s r z d x : vec T) : option (vec T) :=
  obind (mult m true alpha d (t0 O) x) (fun x => Some (v_div s (v_axpy (t1 O) r (v_mul z x)))).

(** AddMSinvZImpl: IpExpansionMatrix.cpp 167-237, IpIdentityMatrix.cpp 78-91,
    IpCompoundMatrix.cpp 272-377, otherwise the default *)
Fixpoint addmsinvz (m : mat) (alpha : T) (s z x : vec T) {struct m} : option (vec T) :=
  match m with
  | Expan nr pos =>
      match s, z, x with
      | Dense _ ds, Dense _ dz, Dense n dx => Some (Dense n (e_addmsinvz O nr pos junk jscal alpha ds dz dx))
      | _, _, _ => None
      end
  | Ident _ _ => Some (v_addquot alpha z s (t1 O) x)
  | Compound brs bcs sp c =>
      let nr := length brs in let nc := length bcs in
      let diag := diagonal nr nc sp in
      loop nr (fun i x =>
        loop nc (fun j x =>
          match c i j with
          | Some blk =>
              if diag && negb (Nat.eqb i j) then Some x
              else obind (part false nc j s) (fun sj => obind (part false nc j z) (fun zj =>
                   on_part nr i (fun xi => addmsinvz blk alpha sj zj xi) x))
          | None => if diag && (Nat.eqb i j) then None else Some x
          end) x) x
  | _ => dflt_addmsinvz m alpha s z x
  end.

(** number of blocks that are set in column j: IpCompoundMatrix.cpp 395-413 *)
Definition column_blocks {A} (nr : nat) (c : nat -> nat -> option A) (j : nat) : nat :=
  length (filter (fun i => match c i j with Some _ => true | None => false end) (seq 0 nr)).
(** the first of them: 515-525, starting from jcol = irow *)
Definition column_block {A} (nr : nat) (c : nat -> nat -> option A) (j : nat) : nat :=
  match find (fun i => match c i j with Some _ => true | None => false end) (seq 0 nr) with Some i => i | None => j end.

(** SinvBlrmZMTdBrImpl: IpExpansionMatrix.cpp 239-374, IpCompoundMatrix.cpp 379-577 *)
Fixpoint sinv (m : mat) (alpha : T) (s r z d x : vec T) {struct m} : option (vec T) :=
  match m with
  | Expan nr pos =>
      match s, r, z, d, x with
      | Dense _ ds, Dense _ dr, Dense _ dz, Dense _ dd, Dense n dx => Some (Dense n (e_sinv O pos junk alpha ds dr dz dd dx))
      | _, _, _, _, _ => None
      end
  | Compound brs bcs sp c =>
      let nr := length brs in let nc := length bcs in
      let diag := diagonal nr nc sp in
      let fast := forallb (fun j => Nat.eqb (column_blocks nr c j) 1) (seq 0 nc) in
      if negb diag && negb fast then dflt_sinv m alpha s r z d x
      else
        loop nc (fun i x =>
          let j := if diag then i else column_block nr c i in
          match c j i with
          | Some blk =>
              if negb (Nat.ltb j nr) then None else
              obind (part false nc i s) (fun si => obind (part false nc i z) (fun zi => obind (part false nc i r) (fun ri =>
              obind (part false nr j d) (fun di =>
              on_part nc i (fun xi => sinv blk alpha si ri zi di xi) x))))
          | None => None
          end) x
  | _ => dflt_sinv m alpha s r z d x
  end.
End Model.
Arguments mat : clear implicits.
