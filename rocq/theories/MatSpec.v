(** Specification of matrices: the real matrix each object stands for, and the
    shapes of the vectors it can be applied to. *)
From Coq Require Import List Bool Arith Reals.
From Verif Require Import VecModel VecSpec VecLift ExpSpec MatModel.
Import ListNotations.
Local Open Scope R_scope.

(** element i of a vector *)
Definition elem (v : vec R) (i : nat) : R := nth i (contents v) 0.

(** block and position within the block of index i, for blocks of the given sizes *)
Fixpoint locate (sizes : list nat) (i : nat) : nat * nat :=
  match sizes with
  | [] => (0%nat, i)
  | n :: sizes => if (i <? n)%nat then (0%nat, i) else let (b, r) := locate sizes (i - n) in (S b, r)
  end.

Definition optelem (v : option (vec R)) (i : nat) : R := match v with Some v => elem v i | None => 1 end.
Definition outer (W : option (nat * (nat -> vec R))) (i j : nat) : R :=
  match W with Some (k, vecs) => sum_to k (fun l => elem (vecs l) i * elem (vecs l) j) | None => 0 end.

(** entry (i, j), both counted from 0 *)
Fixpoint den (m : mat R) (i j : nat) {struct m} : R :=
  match m with
  | GenT _ _ ir jc vals =>
      sum_to (length vals) (fun k =>
        if (nth k ir 0 =? S i)%nat && (nth k jc 0 =? S j)%nat then nth k vals 0 else 0)
  | SymT _ ir jc vals =>
      sum_to (length vals) (fun k =>
        if (nth k ir 0 =? S i)%nat && (nth k jc 0 =? S j)%nat || (nth k ir 0 =? S j)%nat && (nth k jc 0 =? S i)%nat
        then nth k vals 0 else 0)
  | Diag d => if (i =? j)%nat then elem d i else 0
  | Ident _ f => if (i =? j)%nat then f else 0
  | ZeroM _ _ | ZeroSym _ => 0
  | Expan _ pos => entry pos i j
  | Scaled r m c => optelem r i * den m i j * optelem c j
  | SymScaled rc m => optelem rc i * den m i j * optelem rc j
  | Sum _ _ k f t | SumSym _ k f t => sum_to k (fun l => f l * den (t l) i j)
  | Compound brs bcs _ c =>
      let (bi, ri) := locate brs i in let (bj, rj) := locate bcs j in
      match c bi bj with Some m => den m ri rj | None => 0 end
  | CompoundSym bd c =>
      let (bi, ri) := locate bd i in let (bj, rj) := locate bd j in
      if (bj <=? bi)%nat then match c bi bj with Some m => den m ri rj | None => 0 end
      else match c bj bi with Some m => den m rj ri | None => 0 end
  | Transp m => den m j i
  | ExpMV _ vecs _ _ P =>
      match vecs i with
      | None => 0
      | Some v => match P with
                  | None => elem v j
                  | Some (_, pos) => sum_to (length pos) (fun l => entry pos j l * elem v l)
                  end
      end
  | MultiVec _ _ vecs => elem (vecs j) i
  | LowRank _ D V U lrs P reduced =>
      let dg i j := if (i =? j)%nat then elem D i else 0 in
      let lr i j := outer V i j - outer U i j in
      let n := sdim lrs in
      match P with
      | None => dg i j + lr i j
      | Some P =>
          if reduced then sum_to n (fun a => sum_to n (fun b => den P i a * (dg a b + lr a b) * den P j b))
          else dg i j + sum_to n (fun a => sum_to n (fun b => den P i a * lr a b * den P j b))
      end
  end.

(** the classes derived from SymMatrix *)
Definition symclass {T} (m : mat T) : bool :=
  match m with
  | SymT _ _ _ _ | Diag _ | Ident _ _ | ZeroSym _ | SymScaled _ _ | SumSym _ _ _ _ | CompoundSym _ _ | LowRank _ _ _ _ _ _ _ => true
  | _ => false
  end.

(** the parts that a compound matrix with nb blocks sees of a vector of space s:
    its components, or the vector itself if there is one block *)
Definition splits (nb : nat) (s : space) (parts : list space) : Prop :=
  (s = SC parts /\ length parts = nb) \/
  (nb = 1%nat /\ parts = [s] /\ forall l, s = SC l -> length l <> 1%nat).

(** space s of an optional vector / of a family of vectors *)
Definition opt_in {T} (s : space) (v : option (vec T)) : Prop := match v with Some v => vok s v | None => True end.
Definition fam_in {T} (s : space) (W : option (nat * (nat -> vec T))) : Prop :=
  match W with Some (k, vecs) => forall i, (i < k)%nat -> vok s (vecs i) | None => True end.
Definition in_range (n : nat) (l : list nat) : Prop := forall k, In k l -> (1 <= k <= n)%nat.
Definition sp0 : space := SD 0.

(** the matrix is consistent, its rows have the shape sr and its columns the shape
    sc: it maps vectors of space sc to vectors of space sr *)
Fixpoint conf {T} (m : mat T) (sr sc : space) {struct m} : Prop :=
  match m with
  | GenT nr nc ir jc vals =>
      sdim sr = nr /\ sdim sc = nc /\ length ir = length vals /\ length jc = length vals /\ in_range nr ir /\ in_range nc jc /\
      (vals <> [] -> sr = SD nr /\ sc = SD nc)
  | SymT n ir jc vals =>
      sr = SD n /\ sc = SD n /\ length ir = length vals /\ length jc = length vals /\ in_range n ir /\ in_range n jc
  | Diag d => sr = sc /\ vok sr d
  | Ident n _ => sr = sc /\ sdim sr = n
  | ZeroM nr nc => sdim sr = nr /\ sdim sc = nc
  | ZeroSym n => sdim sr = n /\ sr = sc
  | Expan nr pos => sr = SD nr /\ sc = SD (length pos) /\ positions nr pos
  | Scaled r m c => conf m sr sc /\ opt_in sr r /\ opt_in sc c
  | SymScaled rc m => sr = sc /\ conf m sr sc /\ opt_in sr rc /\ symclass m = true
  | Sum nr nc k _ t => sdim sr = nr /\ sdim sc = nc /\ forall i, (i < k)%nat -> conf (t i) sr sc
  | SumSym n k _ t => sr = sc /\ sdim sr = n /\ forall i, (i < k)%nat -> conf (t i) sr sc /\ symclass (t i) = true
  | Compound brs bcs sp c =>
      exists srs scs, splits (length brs) sr srs /\ splits (length bcs) sc scs /\ map sdim srs = brs /\ map sdim scs = bcs /\
        forall i j, (i < length brs)%nat -> (j < length bcs)%nat ->
          match c i j with
          | Some m => sp i j = true /\ conf m (nth i srs sp0) (nth j scs sp0)
          | None => i = j -> diagonal (length brs) (length bcs) sp = false
          end
  | CompoundSym bd c =>
      exists ss, sr = SC ss /\ sc = SC ss /\ map sdim ss = bd /\
        forall i j, (j <= i)%nat -> (i < length bd)%nat ->
          match c i j with
          | Some m => conf m (nth i ss sp0) (nth j ss sp0) /\ (i = j -> symclass m = true)
          | None => True
          end
  | Transp m => conf m sc sr
  | ExpMV k vecs rs nc P =>
      sr = SD k /\ sdim sc = nc /\ (forall i, (i < k)%nat -> opt_in rs (vecs i)) /\
      match P with
      | None => sc = rs
      | Some (nr, pos) => sc = SD nr /\ rs = SD (length pos) /\ positions nr pos
      end
  | MultiVec nr k vecs => sdim sr = nr /\ sc = SD k /\ forall i, (i < k)%nat -> vok sr (vecs i)
  | LowRank n D V U lrs P reduced =>
      sr = sc /\ sdim sr = n /\
      match P with
      | None => vok sr D /\ fam_in sr V /\ fam_in sr U
      | Some P => conf P sr lrs /\ fam_in lrs V /\ fam_in lrs U /\ vok (if reduced then lrs else sr) D
      end
  end.

(** a vector object of space s that may have values or be as MakeNew() leaves it *)
Inductive target {T} (O : nops T) : space -> vec T -> Prop :=
| target_dense n d : (dok n d \/ exists j, d = d_new O n j) -> target O (SD n) (Dense n d)
| target_comp ls l : Forall2 (target O) ls l -> target O (SC ls) (Comp l).

(** element i of M x, respectively of M^T x *)
Definition matvec (m : mat R) (tr : bool) (n : nat) (x : nat -> R) (i : nat) : R :=
  sum_to n (fun j => (if tr then den m j i else den m i j) * x j).

(** conditions for the fused operations: an IdentityMatrix that AddMSinvZ reaches
    has factor one; a compound matrix treated as block diagonal has no more block
    columns than block rows *)
Fixpoint unit_ident (m : mat R) : Prop :=
  match m with
  | Ident _ f => f = 1
  | Compound _ _ _ c => forall i j, match c i j with Some m => unit_ident m | None => True end
  | _ => True
  end.
Fixpoint diag_fits {T} (m : mat T) : Prop :=
  match m with
  | Compound brs bcs sp c =>
      (diagonal (length brs) (length bcs) sp = true -> (length bcs <= length brs)%nat) /\
      forall i j, match c i j with Some m => diag_fits m | None => True end
  | _ => True
  end.
