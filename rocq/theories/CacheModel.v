(** * CacheModel: tagged objects, observers and cached results.

    Models /repo/src/Common/IpTaggedObject.{hpp,cpp}, /repo/src/Common/IpObserver.hpp and
    /repo/src/Common/IpCachedResults.hpp (release build: DBG_ASSERT and IP_DEBUG_* blocks absent).

    The heap: subjects (tagged objects) and observers (dependent results) are identified by their
    address, a [nat]. The address of a destroyed tagged object may be reused by a new one (the
    operation [ONew] names the address); addresses of dependent results are drawn from a counter
    (simplification: they are not reused). Every dereference of a dead address inside the library
    and every [erase(end())] or out-of-range index gives the distinct outcome [UB]; a client call
    with an address that is not alive gives [BadCall] (client error, excluded in the theorems).

    [unique_tag] is thread local: there is one counter per thread, and operations creating or
    changing an object name the executing thread. Threads are interleaved at operation level.

    Simplification: [T] is a plain value. In Ipopt it is often a SmartPtr to a tagged object, so
    that deleting a dependent result may destroy that object; in the model this is a separate
    [ODestroy] operation after the cache operation. *)
From Coq Require Import List ZArith Bool Arith.
From Verif Require Import Num.
Import ListNotations.

Inductive res (A : Type) := Ok (a : A) | UB | BadCall.
Arguments Ok {A} a.
Arguments UB {A}.
Arguments BadCall {A}.
Definition bind {A B} (x : res A) (f : A -> res B) : res B :=
  match x with Ok a => f a | UB => UB | BadCall => BadCall end.
Notation "'do' x <- e ; f" := (bind e (fun x => f)) (at level 200, x pattern, e at level 100, f at level 200).

Definition upd {A} (f : nat -> A) (k : nat) (v : A) : nat -> A := fun x => if Nat.eqb x k then v else f x.

Section Cache.
Variable T : Type.

(** IpTaggedObject.hpp 113-118 [tag_]; IpObserver.hpp 220 [Subject::observers_]. *)
Record subj := mkSubj { tag : Z; observers : list nat }.
(** IpCachedResults.hpp 361-375 (members of [DependentResult]); IpObserver.hpp 111
    [Observer::subjects_] (base class). *)
Record dres := mkDres { stale : bool; result : T; dtags : list Z; dscal : list num; subjects : list nat }.
(** IpCachedResults.hpp 269-274: [max_cache_size_], [cached_results_] ([None] is the null pointer;
    the list holds addresses of dependent results, front first). *)
Record cache := mkCache { maxsize : Z; entries : option (list nat) }.

Record st := mkSt {
  uniq : nat -> Z;                      (* IpTaggedObject.cpp 36: thread-local unique_tag *)
  subjs : nat -> option subj;
  obss : nat -> option dres;
  caches : nat -> option cache;
  nextobs : nat
}.
Definition set_uniq (s : st) f := mkSt f (subjs s) (obss s) (caches s) (nextobs s).
Definition set_subj (s : st) k v := mkSt (uniq s) (upd (subjs s) k v) (obss s) (caches s) (nextobs s).
Definition set_obs (s : st) k v := mkSt (uniq s) (subjs s) (upd (obss s) k v) (caches s) (nextobs s).
Definition set_cache (s : st) k v := mkSt (uniq s) (subjs s) (obss s) (upd (caches s) k v) (nextobs s).

(** IpTaggedObject.cpp 36: the counter starts at 1 in every thread. *)
Definition init : st := mkSt (fun _ => 1%Z) (fun _ => None) (fun _ => None) (fun _ => None) 0.

Definition tag_mod : Z := 2 ^ 32.       (* Tag is unsigned int, IpTaggedObject.hpp 61 *)

(** [v.erase(std::find(v.begin(), v.end(), x))]; [None] if not found. *)
Fixpoint remove_first (x : nat) (l : list nat) : option (list nat) :=
  match l with
  | [] => None
  | y :: r => if Nat.eqb x y then Some r else option_map (cons y) (remove_first x r)
  end.

(** IpObserver.hpp 310-341 [Observer::ProcessNotification] with
    IpCachedResults.hpp 469-485 [DependentResult::ReceiveNotification]:
    [destroyed] is true for NT_BeingDestroyed, false for NT_Changed. *)
Definition process_notification (s : st) (o sid : nat) (destroyed : bool) : res st :=
  match obss s o with
  | None => UB
  | Some d =>
    if destroyed then
      match remove_first sid (subjects d) with
      | None => UB                                    (* erase(end()) *)
      | Some l => Ok (set_obs s o (Some (mkDres true (result d) (dtags d) (dscal d) l)))
      end
    else Ok (set_obs s o (Some (mkDres true (result d) (dtags d) (dscal d) (subjects d))))
  end.

(** IpObserver.hpp 405-418 [Subject::Notify] and 343-353 [Subject::~Subject]: the loop. *)
Fixpoint notify_all (s : st) (os : list nat) (sid : nat) (destroyed : bool) : res st :=
  match os with
  | [] => Ok s
  | o :: r => do s' <- process_notification s o sid destroyed; notify_all s' r sid destroyed
  end.

(** IpTaggedObject.cpp 42-51 [TaggedObject::ObjectChanged]. *)
Definition object_changed (s : st) (thread sid : nat) : res st :=
  match subjs s sid with
  | None => BadCall
  | Some sb =>
    let s1 := set_subj s sid (Some (mkSubj (uniq s thread) (observers sb))) in
    let s2 := set_uniq s1 (upd (uniq s) thread ((uniq s thread + 1) mod tag_mod)%Z) in
    notify_all s2 (observers sb) sid false
  end.

(** IpTaggedObject.hpp 64-69 [TaggedObject::TaggedObject] at a free address. *)
Definition new_object (s : st) (thread sid : nat) : res st :=
  match subjs s sid with
  | Some _ => BadCall
  | None => object_changed (set_subj s sid (Some (mkSubj 0 []))) thread sid
  end.

(** IpObserver.hpp 343-353 [Subject::~Subject], then the memory is gone. *)
Definition destroy_object (s : st) (sid : nat) : res st :=
  match subjs s sid with
  | None => BadCall
  | Some sb => do s' <- notify_all s (observers sb) sid true; Ok (set_subj s' sid None)
  end.

(** IpObserver.hpp 253-273 [Observer::RequestAttach] with 355-376 [Subject::AttachObserver]. *)
Definition request_attach (s : st) (o sid : nat) : res st :=
  match obss s o with
  | None => UB
  | Some d =>
    let s1 := set_obs s o (Some (mkDres (stale d) (result d) (dtags d) (dscal d) (subjects d ++ [sid]))) in
    match subjs s1 sid with
    | None => UB
    | Some sb => Ok (set_subj s1 sid (Some (mkSubj (tag sb) (observers sb ++ [o]))))
    end
  end.

(** IpObserver.hpp 275-308 [Observer::RequestDetach] with 378-403 [Subject::DetachObserver]. *)
Definition request_detach (s : st) (o sid : nat) : res st :=
  match obss s o with
  | None => UB
  | Some d =>
    let s1 := match remove_first sid (subjects d) with
              | None => s
              | Some l => set_obs s o (Some (mkDres (stale d) (result d) (dtags d) (dscal d) l))
              end in
    match subjs s1 sid with
    | None => UB
    | Some sb =>
      match remove_first o (observers sb) with
      | None => Ok s1
      | Some l => Ok (set_subj s1 sid (Some (mkSubj (tag sb) l)))
      end
    end
  end.

(** IpObserver.hpp 230-251 [Observer::~Observer]: for i = size; i > 0; --i detach subjects_[i-1]. *)
Fixpoint detach_loop (i : nat) (s : st) (o : nat) : res st :=
  match i with
  | O => Ok s
  | S i' =>
    match obss s o with
    | None => UB
    | Some d =>
      match nth_error (subjects d) i' with
      | None => UB                                    (* subjects_[i-1] out of range *)
      | Some sid => do s' <- request_detach s o sid; detach_loop i' s' o
      end
    end
  end.
Definition destroy_observer (s : st) (o : nat) : res st :=
  match obss s o with
  | None => UB
  | Some d => do s' <- detach_loop (length (subjects d)) s o; Ok (set_obs s' o None)
  end.

(** IpCachedResults.hpp 409-443, loop of the constructor of [DependentResult] over the
    dependents; [None] is a null pointer. [dependent_tags_[i]] is assigned in order. *)
Fixpoint attach_deps (s : st) (o : nat) (deps : list (option nat)) : res st :=
  match deps with
  | [] => Ok s
  | None :: r =>
    match obss s o with
    | None => UB
    | Some d => attach_deps (set_obs s o (Some (mkDres (stale d) (result d) (dtags d ++ [0%Z]) (dscal d) (subjects d)))) o r
    end
  | Some sid :: r =>
    do s1 <- request_attach s o sid;
    match subjs s1 sid, obss s1 o with
    | Some sb, Some d =>
      attach_deps (set_obs s1 o (Some (mkDres (stale d) (result d) (dtags d ++ [tag sb]) (dscal d) (subjects d)))) o r
    | _, _ => UB
    end
  end.
Definition new_dres (s : st) (r : T) (deps : list (option nat)) (scal : list num) : res (st * nat) :=
  let o := nextobs s in
  let s1 := mkSt (uniq s) (subjs s) (upd (obss s) o (Some (mkDres false r [] scal []))) (caches s) (S o) in
  do s2 <- attach_deps s1 o deps; Ok (s2, o).

(** IpCachedResults.hpp 487-526 [DependentResult::DependentsIdentical]. *)
Fixpoint tags_identical (s : st) (deps : list (option nat)) (ts : list Z) : res bool :=
  match deps, ts with
  | [], _ => Ok true
  | _ :: _, [] => UB
  | d :: deps', t :: ts' =>
    match d with
    | None => if Z.eqb t 0 then tags_identical s deps' ts' else Ok false
    | Some sid =>
      match subjs s sid with
      | None => UB
      | Some sb => if Z.eqb (tag sb) t then tags_identical s deps' ts' else Ok false
      end
    end
  end.
Fixpoint scal_identical (a b : list num) : bool :=
  match a, b with
  | x :: a', y :: b' => neqb x y && scal_identical a' b'
  | _, _ => true
  end.
Definition dependents_identical (s : st) (d : dres) (deps : list (option nat)) (scal : list num) : res bool :=
  if negb (Nat.eqb (length deps) (length (dtags d))) || negb (Nat.eqb (length scal) (length (dscal d)))
  then Ok false
  else do b <- tags_identical s deps (dtags d);
       Ok (b && scal_identical scal (dscal d)).

(** IpCachedResults.hpp 840-868 [CleanupInvalidatedResults], the loop over the list. *)
Fixpoint cleanup (s : st) (l : list nat) : res (st * list nat) :=
  match l with
  | [] => Ok (s, [])
  | o :: r =>
    match obss s o with
    | None => UB
    | Some d =>
      if stale d then do s' <- destroy_observer s o; cleanup s' r
      else do (s', r') <- cleanup s r; Ok (s', o :: r')
    end
  end.

(** The loop in the destructor of [CachedResults], IpCachedResults.hpp 568-574. *)
Fixpoint destroy_all (s : st) (l : list nat) : res st :=
  match l with
  | [] => Ok s
  | o :: r => do s' <- destroy_observer s o; destroy_all s' r
  end.

(** IpCachedResults.hpp 586-625 [AddCachedResult] (and the wrappers 627-788 for 1 to 3 dependents,
    which only build the vectors). The cleanup at the start does nothing for a null list. *)
Definition cache_add (s : st) (c : nat) (r : T) (deps : list (option nat)) (scal : list num) : res st :=
  match caches s c with
  | None => BadCall
  | Some ca =>
    do (s1, l1) <- (match entries ca with None => Ok (s, []) | Some l => cleanup s l end);
    do (s2, o) <- new_dres s1 r deps scal;
    let l2 := o :: l1 in
    if (0 <=? maxsize ca)%Z && (maxsize ca <? Z.of_nat (length l2))%Z then
      match rev l2 with
      | [] => UB                                      (* back() of an empty list *)
      | b :: rl => do s3 <- destroy_observer s2 b; Ok (set_cache s3 c (Some (mkCache (maxsize ca) (Some (rev rl)))))
      end
    else Ok (set_cache s2 c (Some (mkCache (maxsize ca) (Some l2))))
  end.

(** The search loops in [GetCachedResult] and [InvalidateResult]: first identical entry. *)
Fixpoint find_identical (s : st) (l : list nat) (deps : list (option nat)) (scal : list num) : res (option nat) :=
  match l with
  | [] => Ok None
  | o :: r =>
    match obss s o with
    | None => UB
    | Some d => do b <- dependents_identical s d deps scal;
                if b then Ok (Some o) else find_identical s r deps scal
    end
  end.

(** IpCachedResults.hpp 637-669 [GetCachedResult]. *)
Definition cache_get (s : st) (c : nat) (deps : list (option nat)) (scal : list num) : res (st * option T) :=
  match caches s c with
  | None => BadCall
  | Some ca =>
    match entries ca with
    | None => Ok (s, None)
    | Some l =>
      do (s1, l1) <- cleanup s l;
      let s2 := set_cache s1 c (Some (mkCache (maxsize ca) (Some l1))) in
      do f <- find_identical s2 l1 deps scal;
      match f with
      | None => Ok (s2, None)
      | Some o => match obss s2 o with None => UB | Some d => Ok (s2, Some (result d)) end
      end
    end
  end.

(** IpCachedResults.hpp 463-467 [DependentResult::Invalidate] and the loop in [Clear]. *)
Definition invalidate (s : st) (o : nat) : res st :=
  match obss s o with
  | None => UB
  | Some d => Ok (set_obs s o (Some (mkDres true (result d) (dtags d) (dscal d) (subjects d))))
  end.
Fixpoint invalidate_all (s : st) (l : list nat) : res st :=
  match l with
  | [] => Ok s
  | o :: r => do s' <- invalidate s o; invalidate_all s' r
  end.

(** IpCachedResults.hpp 790-813 [InvalidateResult]. *)
Definition cache_invalidate (s : st) (c : nat) (deps : list (option nat)) (scal : list num) : res (st * bool) :=
  match caches s c with
  | None => BadCall
  | Some ca =>
    match entries ca with
    | None => Ok (s, false)
    | Some l =>
      do (s1, l1) <- cleanup s l;
      let s2 := set_cache s1 c (Some (mkCache (maxsize ca) (Some l1))) in
      do f <- find_identical s2 l1 deps scal;
      match f with
      | None => Ok (s2, false)
      | Some o => do s3 <- invalidate s2 o; Ok (s3, true)
      end
    end
  end.

(** IpCachedResults.hpp 815-838 [Clear()] and [Clear(int)] ([newmax] given). *)
Definition cache_clear (s : st) (c : nat) (newmax : option Z) : res st :=
  match caches s c with
  | None => BadCall
  | Some ca =>
    let m := match newmax with None => maxsize ca | Some m => m end in
    match entries ca with
    | None => Ok (set_cache s c (Some (mkCache m None)))
    | Some l =>
      do s1 <- invalidate_all s l;
      do (s2, l2) <- cleanup s1 l;
      Ok (set_cache s2 c (Some (mkCache m (Some l2))))
    end
  end.

(** IpCachedResults.hpp 548-559 and 561-584: constructor and destructor of [CachedResults]. *)
Definition cache_new (s : st) (c : nat) (max : Z) : res st :=
  match caches s c with
  | Some _ => BadCall
  | None => Ok (set_cache s c (Some (mkCache max None)))
  end.
Definition cache_destroy (s : st) (c : nat) : res st :=
  match caches s c with
  | None => BadCall
  | Some ca =>
    do s1 <- (match entries ca with None => Ok s | Some l => destroy_all s l end);
    Ok (set_cache s1 c None)
  end.

(** Client operations. Passing a dead object as dependent is a client error. *)
Inductive op :=
| ONew (thread sid : nat)
| OChange (thread sid : nat)
| ODestroy (sid : nat)
| CNew (c : nat) (max : Z)
| CDestroy (c : nat)
| CAdd (c : nat) (r : T) (deps : list (option nat)) (scal : list num)
| CGet (c : nat) (deps : list (option nat)) (scal : list num)
| CInvalidate (c : nat) (deps : list (option nat)) (scal : list num)
| CClear (c : nat) (newmax : option Z)
| OGetTag (sid : nat).
Inductive out := Done | Got (r : option T) | Flag (b : bool) | Tag (t : Z).

Definition dep_alive (s : st) (d : option nat) : bool :=
  match d with None => true | Some sid => match subjs s sid with None => false | Some _ => true end end.
Definition deps_alive (s : st) (deps : list (option nat)) : bool := forallb (dep_alive s) deps.

Definition step (s : st) (o : op) : res (st * out) :=
  match o with
  | ONew th sid => do s' <- new_object s th sid; Ok (s', Done)
  | OChange th sid => do s' <- object_changed s th sid; Ok (s', Done)
  | ODestroy sid => do s' <- destroy_object s sid; Ok (s', Done)
  | CNew c m => do s' <- cache_new s c m; Ok (s', Done)
  | CDestroy c => do s' <- cache_destroy s c; Ok (s', Done)
  | CAdd c r deps scal => if deps_alive s deps then do s' <- cache_add s c r deps scal; Ok (s', Done) else BadCall
  | CGet c deps scal => if deps_alive s deps then do (s', v) <- cache_get s c deps scal; Ok (s', Got v) else BadCall
  | CInvalidate c deps scal =>
      if deps_alive s deps then do (s', b) <- cache_invalidate s c deps scal; Ok (s', Flag b) else BadCall
  | CClear c m => do s' <- cache_clear s c m; Ok (s', Done)
  | OGetTag sid => match subjs s sid with None => BadCall | Some sb => Ok (s, Tag (tag sb)) end
  end.

Fixpoint run (s : st) (ops : list op) : res st :=
  match ops with
  | [] => Ok s
  | o :: r => do (s', _) <- step s o; run s' r
  end.

End Cache.
