(** Specification of the conversion to triplet format. *)
From Coq Require Import List Bool Arith Reals.
From Verif Require Import VecModel VecSpec VecLift ExpSpec MatModel MatSpec.
Import ListNotations.
Local Open Scope nat_scope.

(** matrices whose triplets list every entry: no symmetric matrix that is stored by
    one triangle, and no class unknown to the converter *)
Fixpoint full {T} (m : mat T) : Prop :=
  match m with
  | GenT _ _ _ _ _ | Diag _ | Ident _ _ | ZeroM _ _ | ZeroSym _ | Expan _ _ | ExpMV _ _ _ _ _ => True
  | SymT _ _ _ _ | CompoundSym _ _ | MultiVec _ _ _ | LowRank _ _ _ _ _ _ _ => False
  | Scaled _ m _ | SymScaled _ m | Transp m => full m
  | Sum _ _ k _ t | SumSym _ k _ t => forall i, i < k -> full (t i)
  | Compound brs bcs _ c => forall i j, i < length brs -> j < length bcs -> match c i j with Some b => full b | None => True end
  end.
(** symmetric matrices whose triplets list one triangle (the diagonal belongs to it) *)
Fixpoint half {T} (m : mat T) : Prop :=
  match m with
  | SymT _ _ _ _ | Diag _ | Ident _ _ | ZeroSym _ => True
  | SymScaled _ m => half m
  | SumSym _ k _ t => forall i, i < k -> half (t i)
  | CompoundSym bd c => forall i j, j <= i -> i < length bd ->
      match c i j with Some b => if Nat.eqb i j then half b else full b | None => True end
  | _ => False
  end.

(** no matrix of a class that the converter does not know *)
Fixpoint known {T} (m : mat T) : Prop :=
  match m with
  | Scaled _ m _ | SymScaled _ m | Transp m => known m
  | Sum _ _ k _ t | SumSym _ k _ t => forall i, i < k -> known (t i)
  | Compound brs bcs _ c => forall i j, i < length brs -> j < length bcs -> match c i j with Some b => known b | None => True end
  | CompoundSym bd c => forall i j, j <= i -> i < length bd -> match c i j with Some b => known b | None => True end
  | MultiVec _ _ _ | LowRank _ _ _ _ _ _ _ => False
  | _ => True
  end.
(** the same structure: the two matrices may differ in their numbers only *)
Fixpoint alike {T} (m m' : mat T) {struct m} : Prop :=
  match m, m' with
  | GenT nr nc ir jc _, GenT nr' nc' ir' jc' _ => nr = nr' /\ nc = nc' /\ ir = ir' /\ jc = jc'
  | SymT n ir jc _, SymT n' ir' jc' _ => n = n' /\ ir = ir' /\ jc = jc'
  | Diag d, Diag d' => dim d = dim d'
  | Ident n _, Ident n' _ => n = n'
  | ZeroM nr nc, ZeroM nr' nc' => nr = nr' /\ nc = nc'
  | ZeroSym n, ZeroSym n' => n = n'
  | Expan nr pos, Expan nr' pos' => nr = nr' /\ pos = pos'
  | Scaled _ m _, Scaled _ m' _ => alike m m'
  | SymScaled _ m, SymScaled _ m' => alike m m'
  | Sum nr nc k _ t, Sum nr' nc' k' _ t' => nr = nr' /\ nc = nc' /\ k = k' /\ forall i, i < k -> alike (t i) (t' i)
  | SumSym n k _ t, SumSym n' k' _ t' => n = n' /\ k = k' /\ forall i, i < k -> alike (t i) (t' i)
  | Compound brs bcs _ c, Compound brs' bcs' _ c' => brs = brs' /\ bcs = bcs' /\
      forall i j, i < length brs -> j < length bcs ->
        match c i j, c' i j with Some b, Some b' => alike b b' | None, None => True | _, _ => False end
  | CompoundSym bd c, CompoundSym bd' c' => bd = bd' /\
      forall i j, j <= i -> i < length bd ->
        match c i j, c' i j with Some b, Some b' => alike b b' | None, None => True | _, _ => False end
  | Transp m, Transp m' => alike m m'
  | ExpMV k _ rs nc P, ExpMV k' _ rs' nc' P' => k = k' /\ rs = rs' /\ nc = nc' /\ P = P'
  | MultiVec nr k _, MultiVec nr' k' _ => nr = nr' /\ k = k'
  | LowRank n _ _ _ _ _ _, LowRank n' _ _ _ _ _ _ => n = n'
  | _, _ => False
  end.

(** array a' is array a with the segment that starts at p replaced by l *)
Definition segment {A} (p : nat) (l a a' : list A) : Prop :=
  length a' = length a /\ (forall i, i < length l -> nth_error a' (p + i) = nth_error l i) /\
  (forall i, i < p \/ p + length l <= i -> nth_error a' i = nth_error a i).
