(** * FilterModel: the filter of the line search.

    Models /repo/src/Algorithm/IpFilter.hpp and /repo/src/Algorithm/IpFilter.cpp.
    Coordinates are binary64 ([Num.num]). Entries live in a [std::list] of owned pointers; the
    model keeps the entries themselves, front first (deletion of the entry objects is not
    observable). Reading [vals[i]] beyond the end of the vector is undefined behaviour
    (only a DBG_ASSERT guards it): every function returns [None] in that case. *)
From Coq Require Import List ZArith Bool.
From Verif Require Import Num.
Import ListNotations.

(** IpFilter.hpp 118-121: members [vals_], [iter_] of [FilterEntry]. *)
Record entry := mkEntry { evals : list num; eiter : Z }.

(** IpFilter.hpp 40-59, [FilterEntry::Acceptable]: the loop over the coordinates [vals_] of the
    entry; [true] at the first coordinate with [vals[i] <= vals_[i]]. *)
Fixpoint coords_acceptable (vals_ vals : list num) : option bool :=
  match vals_ with
  | [] => Some false
  | e :: es =>
    match vals with
    | [] => None                                   (* vals[i] out of range *)
    | v :: vs => if nle v e then Some true else coords_acceptable es vs
    end
  end.
Definition entry_acceptable (e : entry) (vals : list num) : option bool :=
  coords_acceptable (evals e) vals.

(** IpFilter.hpp 65-83, [FilterEntry::Dominated]: [false] at the first coordinate with
    [vals[i] > vals_[i]]. *)
Fixpoint coords_dominated (vals_ vals : list num) : option bool :=
  match vals_ with
  | [] => Some true
  | e :: es =>
    match vals with
    | [] => None                                   (* vals[i] out of range *)
    | v :: vs => if ngt v e then Some false else coords_dominated es vs
    end
  end.
Definition entry_dominated (e : entry) (vals : list num) : option bool :=
  coords_dominated (evals e) vals.

(** IpFilter.hpp 233-236: [filter_list_] ([dim_] is used for printing and assertions only). *)
Definition filter := list entry.

(** IpFilter.cpp 43-60, [Filter::Acceptable]. *)
Fixpoint filter_acceptable (f : filter) (vals : list num) : option bool :=
  match f with
  | [] => Some true
  | e :: es =>
    match entry_acceptable e vals with
    | None => None
    | Some false => Some false
    | Some true => filter_acceptable es vals
    end
  end.

(** IpFilter.cpp 62-87, the [while] loop of [Filter::AddEntry] removing dominated entries. *)
Fixpoint remove_dominated (f : filter) (vals : list num) : option filter :=
  match f with
  | [] => Some []
  | e :: es =>
    match entry_dominated e vals with
    | None => None
    | Some d =>
      match remove_dominated es vals with
      | None => None
      | Some r => Some (if d then r else e :: r)
      end
    end
  end.

(** IpFilter.cpp 62-87, [Filter::AddEntry]. *)
Definition filter_add (f : filter) (vals : list num) (iteration : Z) : option filter :=
  match remove_dominated f vals with
  | None => None
  | Some r => Some (r ++ [mkEntry vals iteration])
  end.

(** IpFilter.cpp 89-98, [Filter::Clear]. *)
Definition filter_clear (f : filter) : filter := [].

(** IpFilter.hpp 156-182: the wrappers for two coordinates. *)
Definition filter_acceptable2 (f : filter) (v1 v2 : num) : option bool := filter_acceptable f [v1; v2].
Definition filter_add2 (f : filter) (v1 v2 : num) (it : Z) : option filter := filter_add f [v1; v2] it.

(** Operations of a client and their effect; the constructor (IpFilter.cpp 37-41) gives [[]]. *)
Inductive fop := Add (vals : list num) (iteration : Z) | Clear.
Definition fstep (s : option filter) (o : fop) : option filter :=
  match s with
  | None => None
  | Some f => match o with Add v i => filter_add f v i | Clear => Some (filter_clear f) end
  end.
Definition frun (ops : list fop) : option filter := fold_left fstep ops (Some []).
