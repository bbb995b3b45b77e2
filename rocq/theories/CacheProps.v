(** * CacheProps: C03 (no stale hits), C04 (capacity, survival), C05 (tags), C06 (observers). *)
From Coq Require Import List ZArith Bool Arith Lia.
From Verif Require Import Num CacheModel CacheSpec CacheProofs CacheHist.
Import ListNotations.

(** C03. Every value returned by a lookup was added to the same cache with exactly the same
    dependency objects (null positions included) and equal scalars, and since then none of these
    objects was changed or destroyed and the cache was not cleared. *)
Theorem C03_cache_hit_not_stale : forall T th h s c deps scal r s',
  one_thread T th h -> (changes T h <= 2 ^ 32 - 1)%Z ->
  run T (init T) h = Ok s -> step T s (CGet T c deps scal) = Ok (s', Got T (Some r)) ->
  exists pre mid scal0, h = pre ++ CAdd T c r deps scal0 :: mid /\ scal_eq scal scal0 /\
    forall o, In o mid -> ~ outdates T o c deps.
Proof. exact hit_not_stale. Qed.

(** Non-vacuity: a history with changes and a hit. *)
Definition ex_hist : list (op nat) :=
  [ONew nat 0 0; ONew nat 0 1; CNew nat 7 2; CAdd nat 7 10 [Some 0; None; Some 1] [none]; OChange nat 0 0;
   CAdd nat 7 11 [Some 0; None; Some 1] [none]].
Example C03_nonvacuous :
  (match run nat (init nat) ex_hist with
   | Ok s => match step nat s (CGet nat 7 [Some 0; None; Some 1] [none]) with Ok (_, Got _ (Some 11)) => true | _ => false end
   | _ => false end) = true /\ one_thread nat 0 ex_hist /\ (changes nat ex_hist <= 2 ^ 32 - 1)%Z.
Proof.
  split; [vm_compute; reflexivity|]. split; [|vm_compute; discriminate].
  intros o H. cbn in H. decompose [or] H; subst; cbn; auto; contradiction.
Qed.

(** With two threads the thread-local counters give equal tags to different objects, and a lookup
    returns a value that belongs to another object. *)
Theorem C03_cross_thread_refuted : exists h s s' r,
  run nat (init nat) h = Ok s /\ step nat s (CGet nat 0 [Some 1] []) = Ok (s', Got nat (Some r)) /\
  ~ exists pre mid scal0, h = pre ++ CAdd nat 0 r [Some 1] scal0 :: mid.
Proof.
  exists [ONew nat 1 0; ONew nat 2 1; CNew nat 0 1; CAdd nat 0 42 [Some 0] []].
  eexists. eexists. exists 42. split; [reflexivity|]. split; [reflexivity|].
  intros (pre & mid & sc & H). 
  assert (Hin : In (CAdd nat 0 42 [Some 1] sc) [ONew nat 1 0; ONew nat 2 1; CNew nat 0 1; CAdd nat 0 42 [Some 0] []])
    by (rewrite H; apply in_or_app; right; left; reflexivity).
  cbn in Hin. decompose [or] Hin; try discriminate; contradiction.
Qed.

(** C04. *)
Theorem C04_cache_capacity : forall T h s c ca, run T (init T) h = Ok s -> caches T s c = Some ca ->
  (0 <= maxsize ca)%Z -> (held T s c <= maxsize ca)%Z.
Proof. exact capacity. Qed.

(** A result survives in the cache (or is superseded by a newer one for the same dependencies) until
    [maxsize] further results were added, unless one of its dependencies changes. *)
Theorem C04_recent_results_survive : forall T th h c ca r deps scal mid s s1 s2,
  one_thread T th (h ++ CAdd T c r deps scal :: mid) -> (changes T (h ++ CAdd T c r deps scal :: mid) <= 2 ^ 32 - 1)%Z ->
  run T (init T) h = Ok s -> caches T s c = Some ca ->
  step T s (CAdd T c r deps scal) = Ok (s1, Done T) -> run T s1 mid = Ok s2 ->
  ((0 <= maxsize ca)%Z -> (adds T c mid < maxsize ca)%Z) ->
  (forall q, In q mid -> ~ outdates T q c deps) -> (forall q d1 d2, In q mid -> q <> CInvalidate T c d1 d2) ->
  Forall (fun x => nnan x = false) scal ->
  exists s3 r', step T s2 (CGet T c deps scal) = Ok (s3, Got T (Some r')) /\
    (r' = r \/ exists scal', In (CAdd T c r' deps scal') mid /\ scal_eq scal scal').
Proof. exact recent_survives. Qed.

Theorem C04_size_zero_never_hits : forall T h s c ca deps scal s' v,
  run T (init T) h = Ok s -> caches T s c = Some ca -> maxsize ca = 0%Z ->
  step T s (CGet T c deps scal) = Ok (s', Got T v) -> v = None.
Proof. exact size_zero. Qed.

(** Non-vacuity of the survival theorem: size 2, one more add in between. *)
Example C04_nonvacuous :
  match run nat (init nat) [ONew nat 0 0; ONew nat 0 1; CNew nat 3 2; CAdd nat 3 5 [Some 0] [none]; CAdd nat 3 6 [Some 1] []; OChange nat 0 1] with
  | Ok s => match step nat s (CGet nat 3 [Some 0] [none]) with Ok (_, Got _ (Some 5)) => true | _ => false end | _ => false end = true
  /\ match run nat (init nat) [ONew nat 0 0; ONew nat 0 1; CNew nat 3 1; CAdd nat 3 5 [Some 0] [none]; CAdd nat 3 6 [Some 1] []] with
  | Ok s => match step nat s (CGet nat 3 [Some 0] [none]) with Ok (_, Got _ None) => true | _ => false end | _ => false end = true.
Proof. split; vm_compute; reflexivity. Qed.

(** InvalidateResult marks only one of several results for the same dependencies: a lookup right
    after a successful InvalidateResult may still return a value. *)
Theorem C04_invalidate_duplicate_refuted : exists h s s1 s2 r,
  run nat (init nat) h = Ok s /\ step nat s (CInvalidate nat 0 [Some 0] []) = Ok (s1, Flag nat true) /\
  step nat s1 (CGet nat 0 [Some 0] []) = Ok (s2, Got nat (Some r)).
Proof.
  set (h := [ONew nat 0 0; CNew nat 0 2; CAdd nat 0 1 [Some 0] []; CAdd nat 0 2 [Some 0] []]).
  assert (K : match run nat (init nat) h with
    | Ok s => match step nat s (CInvalidate nat 0 [Some 0] []) with
              | Ok (s1, Flag _ true) => match step nat s1 (CGet nat 0 [Some 0] []) with Ok (s2, Got _ (Some r)) => true | _ => false end
              | _ => false end
    | _ => false end = true) by (vm_compute; reflexivity).
  destruct (run nat (init nat) h) as [s| |] eqn:R; [|discriminate|discriminate].
  destruct (step nat s (CInvalidate nat 0 [Some 0] [])) as [[s1 [|?|[|]|?]]| |] eqn:R1; try discriminate.
  destruct (step nat s1 (CGet nat 0 [Some 0] [])) as [[s2 [|[r|]|?|?]]| |] eqn:R2; try discriminate.
  exists h, s, s1, s2, r. auto.
Qed.

(** A NaN scalar dependency is never found again. *)
Example C04_nan_scalar_never_found :
  match run nat (init nat) [ONew nat 0 0; CNew nat 0 2; CAdd nat 0 1 [Some 0] [NaN]] with
  | Ok s => match step nat s (CGet nat 0 [Some 0] [NaN]) with Ok (_, Got _ None) => true | _ => false end | _ => false end = true.
Proof. vm_compute; reflexivity. Qed.

(** C05. Tags read at two times of two objects agree exactly if it is the same object, not modified in between. *)
Theorem C05_tag_identifies_state : forall T th h1 h2 s1 s2 x y t1 t2 s1' s2',
  one_thread T th (h1 ++ h2) -> (changes T (h1 ++ h2) <= 2 ^ 32 - 1)%Z ->
  run T (init T) h1 = Ok s1 -> run T s1 h2 = Ok s2 ->
  step T s1 (OGetTag T x) = Ok (s1', Tag T t1) -> step T s2 (OGetTag T y) = Ok (s2', Tag T t2) ->
  (t1 = t2 <-> x = y /\ forall o, In o h2 -> ~ modifies T o x).
Proof. exact tag_identifies_state. Qed.

Example C05_nonvacuous :
  match run nat (init nat) [ONew nat 0 0; ONew nat 0 1; OChange nat 0 0] with
  | Ok s => match step nat s (OGetTag nat 0), step nat s (OGetTag nat 1) with
            | Ok (_, Tag _ 3%Z), Ok (_, Tag _ 2%Z) => true | _, _ => false end | _ => false end = true.
Proof. vm_compute; reflexivity. Qed.

(** After 2^32 modifications the 32-bit counter has wrapped and the object shows its old tag. *)
Theorem C05_wraparound_refuted : exists h1 h2 s1 s2 t,
  one_thread nat 0 (h1 ++ h2) /\ run nat (init nat) h1 = Ok s1 /\ run nat s1 h2 = Ok s2 /\
  (exists o, In o h2 /\ modifies nat o 0) /\
  step nat s1 (OGetTag nat 0) = Ok (s1, Tag nat t) /\ step nat s2 (OGetTag nat 0) = Ok (s2, Tag nat t).
Proof.
  set (n := Z.to_nat (2 ^ 32)).
  assert (Hn : exists k, n = S k /\ Z.of_nat k = (2 ^ 32 - 1)%Z).
  { exists (n - 1)%nat. assert (E : Z.of_nat n = (2 ^ 32)%Z) by (unfold n; rewrite Z2Nat.id; [reflexivity|discriminate]).
    assert (H0 : (1 < Z.of_nat n)%Z) by (rewrite E; reflexivity). split; [lia|]. rewrite <- E. lia. }
  destruct Hn as (k & Hk & Hkz). clearbody n. subst n.
  assert (exists s1, run nat (init nat) [ONew nat 0 0] = Ok s1 /\ subjs nat s1 0 = Some (mkSubj 1 []) /\ uniq nat s1 0 = 2%Z) as (s1 & R1 & E1 & U1).
  { eexists. split; [reflexivity|]. split; reflexivity. }
  destruct (repeat_changes nat (S k) s1 0 0 1 E1) as (s2 & R2 & E2).
  { rewrite U1. split; [discriminate|reflexivity]. }
  exists [ONew nat 0 0], (repeat (OChange nat 0 0) (S k)), s1, s2, 1%Z.
  split; [|split; [exact R1|split; [exact R2|split; [|split]]]].
  - intros o [<-|Ho]; [reflexivity|]. apply repeat_spec in Ho. subst o. reflexivity.
  - exists (OChange nat 0 0). split; [left; reflexivity|reflexivity].
  - cbn [step]. rewrite E1. reflexivity.
  - cbn [step]. rewrite E2, U1, Hkz. reflexivity.
Qed.

(** C06. No history drives the library into undefined behaviour (access to destroyed objects, erase
    of a missing element), and observers and subjects always refer to each other symmetrically. *)
Theorem C06_no_dangling_access : forall T h, run T (init T) h <> UB.
Proof. intros T h. exact (run_no_UB T h (init T) (SInv_init T)). Qed.

Theorem C06_observers_symmetric : forall T h s, run T (init T) h = Ok s ->
  (forall sid sb o, subjs T s sid = Some sb ->
     count_occ Nat.eq_dec (observers sb) o = match obss T s o with Some d => count_occ Nat.eq_dec (subjects T d) sid | None => 0 end) /\
  (forall o d sid, obss T s o = Some d ->
     count_occ Nat.eq_dec (subjects T d) sid = match subjs T s sid with Some sb => count_occ Nat.eq_dec (observers sb) o | None => 0 end).
Proof. exact observers_symmetric. Qed.

Theorem C06_no_leaked_result : forall T h s o, run T (init T) h = Ok s -> obss T s o <> None ->
  exists c ca l, caches T s c = Some ca /\ entries ca = Some l /\ In o l.
Proof. exact no_leak. Qed.

(** Non-vacuity: an object observed twice by one result and once by another, then destroyed; the
    results lose the reference and are dropped later. *)
Example C06_nonvacuous :
  match run nat (init nat) [ONew nat 0 0; ONew nat 0 1; CNew nat 0 3; CAdd nat 0 1 [Some 0; Some 0; Some 1] []; CAdd nat 0 2 [Some 0] []] with
  | Ok s => match subjs nat s 0 with Some sb => Nat.eqb (length (observers sb)) 3 | None => false end && 
     match run nat s [ODestroy nat 0; CGet nat 0 [Some 1] []; ODestroy nat 1; CDestroy nat 0] with
     | Ok s' => match obss nat s' 0, obss nat s' 1 with None, None => true | _, _ => false end | _ => false end
  | _ => false end = true.
Proof. vm_compute; reflexivity. Qed.

Print Assumptions C03_cache_hit_not_stale.
Print Assumptions C04_recent_results_survive.
Print Assumptions C05_tag_identifies_state.
Print Assumptions C05_wraparound_refuted.
Print Assumptions C06_no_dangling_access.
