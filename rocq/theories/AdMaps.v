(** Lemmas about the problem translation: values. *)
From Coq Require Import List Bool Arith ZArith Lia Sorted.
From Verif Require Import VecModel VecProofs ExpModel ExpSpec ExpProofs ExpProps AdModel AdSpec AdProofs.
Import ListNotations.
Set Implicit Arguments.
Local Open Scope nat_scope.

Lemma sorted_unique l : forall m, StronglySorted lt l -> StronglySorted lt m -> (forall i, In i l <-> In i m) -> l = m.
Proof.
  induction l as [|a l IH]; intros [|b m] S1 S2 H; auto.
  - destruct (proj2 (H b)); left; auto.
  - destruct (proj1 (H a)); left; auto.
  - inversion S1 as [|? ? S1' F1]; subst. inversion S2 as [|? ? S2' F2]; subst. rewrite Forall_forall in F1, F2.
    assert (a = b).
    { destruct (proj1 (H a) (or_introl eq_refl)) as [E|E]; auto. destruct (proj2 (H b) (or_introl eq_refl)) as [E'|E']; auto.
      specialize (F1 _ E'). specialize (F2 _ E). lia. }
    subst b. f_equal. apply IH; auto. intros i. specialize (H i). simpl in H. split; intros K.
    + destruct (proj1 H (or_intror K)) as [E|E]; auto. subst. specialize (F1 _ K). lia.
    + destruct (proj2 H (or_intror K)) as [E|E]; auto. subst. specialize (F2 _ K). lia.
Qed.
Lemma enumerates_unique n P l m : enumerates n P l -> enumerates n P m -> l = m.
Proof. intros [A B] [C D]. apply sorted_unique; auto. intros i. rewrite B, D. reflexivity. Qed.

Lemma relax_false q : is_relax q = false <-> q <> RELAX_BOUNDS.
Proof. destruct q; cbn; intuition congruence. Qed.
Lemma relax_true' q : is_relax q = true <-> q = RELAX_BOUNDS.
Proof. destruct q; cbn; intuition congruence. Qed.

Section Gen.
Context {T : Type} (O : nops T).
Notation at_ := (at_ O).
Notation z0 := (t0 O).

Lemma put_length idx : forall vals x, length (put idx vals x : list T) = length x.
Proof. induction idx as [|i idx IH]; intros [|v vals] x; simpl; auto. rewrite IH. apply upd_length. Qed.
Lemma put_out idx j : ~ In j idx -> forall vals x, nth j (put idx vals x) z0 = nth j x z0.
Proof.
  induction idx as [|i idx IH]; intros N [|v vals] x; simpl; auto. rewrite IH by (intro; apply N; right; auto).
  apply nth_upd_other. intro; apply N; left; auto.
Qed.
Lemma put_in idx : NoDup idx -> forall vals x k, length vals = length idx -> k < length idx -> (forall p, In p idx -> p < length x) ->
  nth (nth k idx 0) (put idx vals x) z0 = nth k vals z0.
Proof.
  induction 1 as [|p idx N ND IH]; intros [|v vals] x k Lx Li R; simpl in *; try lia.
  destruct k as [|k].
  - rewrite put_out by exact N. apply nth_upd_same. apply R; auto.
  - apply IH; try lia. intros; rewrite upd_length; auto.
Qed.
Lemma nth_fun (f : nat -> T) m k : k < m -> nth k (map f (seq 0 m)) z0 = f k.
Proof. intros H. rewrite (@nth_map' _ _ f k 0) by (rewrite seq_length; auto). rewrite seq_nth; auto. Qed.
Lemma map_nth_seq {A} (d : A) l : map (fun i => nth i l d) (seq 0 (length l)) = l.
Proof. symmetry. apply list_fun. Qed.

(** posof of compressed positions *)
Lemma posof_in n pos k : positions n pos -> k < length pos -> posof (compressed_pos n pos) (nth k pos 0) = Z.of_nat k.
Proof. intros P H. apply (C25_compressed_positions P); auto. Qed.
Lemma posof_out n pos j : positions n pos -> ~ In j pos -> posof (compressed_pos n pos) j = (-1)%Z.
Proof. intros P H. apply (C25_compressed_positions P); auto. Qed.
Lemma posof_cases n pos j : positions n pos ->
  (exists k, k < length pos /\ nth k pos 0 = j /\ posof (compressed_pos n pos) j = Z.of_nat k) \/
  (~ In j pos /\ posof (compressed_pos n pos) j = (-1)%Z).
Proof.
  intros P. destruct (in_dec Nat.eq_dec j pos) as [I|I].
  - left. apply (In_nth _ _ 0) in I. destruct I as (k & K1 & K2). exists k. repeat split; auto. rewrite <- K2. apply posof_in; auto.
  - right. split; auto. apply posof_out; auto.
Qed.
Lemma posof_nonneg n pos j : positions n pos -> (posof (compressed_pos n pos) j =? -1)%Z = true <-> ~ In j pos.
Proof.
  intros P. destruct (posof_cases j P) as [(k & K1 & K2 & K3)|[K1 K2]].
  - rewrite K3. split; [intros E; apply Z.eqb_eq in E; lia|]. intros N. exfalso. apply N. subst j. apply nth_In; auto.
  - rewrite K2. split; auto.
Qed.

(** element k of the list behind a dense vector of dimension [n] *)
Definition velems (n : nat) (v : xvec (T:=T)) : list T := match v with Homog s => repeat s n | Dense l => l end.
Lemma vat_elems n v k : length (velems n v) = n -> k < n -> vat O v k = nth k (velems n v) z0.
Proof. destruct v as [s|l]; simpl; intros L H; auto. symmetry. clear L. revert k H. induction n; intros [|k] H; simpl; try lia; auto. apply IHn. lia. Qed.

Section A.
Variables (minf pinf : T) (t : treatment) (cs : bool) (xl xu gl gu : list T) (deps : list nat) (jac hess : list (nat * nat)) (a : adapter).
Hypothesis LX : length xu = length xl.
Hypothesis LG : length gu = length gl.
Hypothesis SD : StronglySorted lt deps.
Hypothesis A : get_spaces O minf pinf t cs xl xu gl gu deps jac hess = inl a.
Notation n := (length xl).
Notation m := (length gl).
Notation t' := (final_t O xl xu gl gu t).
Notation us := (users O xl xu t').
Lemma ALL : ltac:(let TY := type of (@sp_all _ O minf pinf t cs xl xu gl gu deps jac hess a LX LG SD A) in exact TY).
Proof. exact (@sp_all _ O minf pinf t cs xl xu gl gu deps jac hess a LX LG SD A). Qed.

Lemma us_pos : positions n us.
Proof. eapply enumerates_positions. apply (@us_enum _ O minf pinf t cs xl xu gl gu deps jac hess a LX LG SD A). Qed.

Lemma a_n_eq : a_n a = n. Proof. apply ALL. Qed.
Lemma a_nvar_eq : a_nvar a = length us. Proof. apply ALL. Qed.
Lemma a_m_eq : a_m a = m. Proof. apply ALL. Qed.
Lemma a_t_eq : a_t a = t'. Proof. apply ALL. Qed.

Lemma vars_cases : (a_vars a = Some us) \/ (a_vars a = None /\ us = seq 0 n).
Proof.
  destruct (a_vars a) eqn:E.
  - left. rewrite (@sp_vars _ O minf pinf t cs xl xu gl gu deps jac hess a LX LG A) in E. destruct (_ && _); [|discriminate]. symmetry. exact E.
  - right. split; auto. apply (@sp_all_kept _ O minf pinf t cs xl xu gl gu deps jac hess a LX LG SD A E).
Qed.

Lemma start_x_spec full : length full = n -> start_x O a full = map (fun i => nth i full z0) us.
Proof.
  intros L. unfold start_x. destruct vars_cases as [->|[-> E]]; [reflexivity|].
  rewrite a_nvar_eq, E, seq_length, <- L, firstn_all. symmetry. apply map_nth_seq.
Qed.
Lemma grad_spec g : length g = n -> grad_values O a g = map (fun i => nth i g z0) us.
Proof.
  intros L. unfold grad_values. destruct vars_cases as [->|[-> E]]; [reflexivity|].
  rewrite E, <- L. symmetry. apply map_nth_seq.
Qed.

Lemma fix_pos : positions n (a_fix a).
Proof.
  destruct ALL as (_ & _ & _ & _ & _ & _ & -> & _). eapply enumerates_positions. apply enumerates_filter.
Qed.
Lemma fix_in i : In i (a_fix a) <-> i < n /\ tight O xl xu i /\ a_t a <> RELAX_BOUNDS.
Proof.
  rewrite a_t_eq. destruct ALL as (_ & _ & _ & _ & _ & _ & -> & _). rewrite filter_In, in_seq.
  unfold tight, fx, lower, upper, AdModel.at_. rewrite andb_true_iff, negb_true_iff.
  rewrite relax_false. intuition lia.
Qed.

Lemma fix_values_nth full i : length full = n -> removing (a_t a) = true -> In i (a_fix a) -> nth i (fix_values O a xl full) z0 = nth i xl z0.
Proof.
  intros L R I. unfold fix_values. rewrite R. apply (In_nth _ _ 0) in I. destruct I as (k & K1 & K2). rewrite <- K2 at 1.
  rewrite put_in; auto.
  - rewrite (@nth_map' _ _ _ k 0) by auto. rewrite K2. reflexivity.
  - apply fix_pos.
  - apply map_length.
  - rewrite L. apply fix_pos.
Qed.
Lemma resort_x_len uf full x : length (velems (length us) x) = length us -> length (resort_x O a uf full x) = n.
Proof.
  intros L. unfold resort_x. rewrite a_n_eq. destruct vars_cases as [->|[-> E]]; [rewrite map_length, seq_length; reflexivity|].
  destruct x as [s|l]; [apply repeat_length|]. cbn [velems] in L. rewrite E, seq_length in L. rewrite <- L, firstn_all. reflexivity.
Qed.
Lemma resort_x_kept uf full x k : length (velems (length us) x) = length us -> k < length us ->
  nth (nth k us 0) (resort_x O a uf full x) z0 = nth k (velems (length us) x) z0.
Proof.
  intros L H. unfold resort_x. rewrite a_n_eq. destruct vars_cases as [->|[-> E]].
  - rewrite nth_fun by (apply us_pos; apply nth_In; auto). rewrite posof_in by (auto using us_pos).
    replace (Z.of_nat k =? -1)%Z with false by (symmetry; apply Z.eqb_neq; lia). cbn [negb]. rewrite Nat2Z.id.
    change (vat O x k = nth k (velems (length us) x) z0). apply vat_elems; auto.
  - rewrite E in *. rewrite seq_length in *. rewrite seq_nth by auto. simpl. destruct x as [s|l]; cbn [velems] in *; auto. rewrite <- L, firstn_all; auto.
Qed.
Lemma resort_x_dropped uf full x i : length full = n -> i < n -> ~ In i us ->
  nth i (resort_x O a uf (fix_values O a xl full) x) z0 = if uf then nth i xl z0 else z0.
Proof.
  intros L H N. unfold resort_x. rewrite a_n_eq. destruct vars_cases as [V|[V E]]; rewrite V.
  - rewrite nth_fun by auto. rewrite posof_out by (auto using us_pos). cbn [Z.eqb negb]. destruct uf; auto.
    assert (B : 0 <? length (a_fix a) = true /\ removing t' = true).
    { rewrite (@sp_vars _ O minf pinf t cs xl xu gl gu deps jac hess a LX LG A) in V. destruct (0 <? _), (removing t'); cbn in V; auto; discriminate. }
    unfold AdModel.at_. apply fix_values_nth; auto; [rewrite a_t_eq; tauto|]. apply fix_in.
    destruct (@us_enum _ O minf pinf t cs xl xu gl gu deps jac hess a LX LG SD A) as [_ U].
    split; auto. assert (TT : tight O xl xu i /\ removing (a_t a) = true).
    { unfold tight. destruct (teq O (lower O xl i) (upper O xu i)) eqn:TQ.
      - split; auto. rewrite a_t_eq; tauto.
      - exfalso. apply N. apply U. split; auto. intros [TT _]. unfold tight in TT. congruence. }
    split; [tauto|]. destruct TT as [_ TT]. intros Q. rewrite Q in TT. discriminate.
  - exfalso. apply N. rewrite E. apply in_seq. lia.
Qed.

(** bounds *)
Definition has_lower (i : nat) : Prop := if teq O (lower O xl i) (upper O xu i) then a_t a = RELAX_BOUNDS else bounded_below O minf xl i.
Definition has_upper (i : nat) : Prop := if teq O (lower O xl i) (upper O xu i) then a_t a = RELAX_BOUNDS else bounded_above O pinf xu i.
Lemma relax_true : is_relax t' = true <-> t' = RELAX_BOUNDS.
Proof. apply relax_true'. Qed.
Lemma xlo_enum : enumerates (length us) (fun k => has_lower (nth k us 0)) (a_xlo a).
Proof.
  destruct ALL as (_ & _ & _ & _ & -> & _). eapply enumerates_iff; [|apply enumerates_filter]. intros k Hk. cbn beta.
  unfold lowb, has_lower, fx, lower, upper, bounded_below, lower, AdModel.at_. rewrite a_t_eq. destruct (teq _ _ _); [apply relax_true|reflexivity].
Qed.
Lemma xup_enum : enumerates (length us) (fun k => has_upper (nth k us 0)) (a_xup a).
Proof.
  destruct ALL as (_ & _ & _ & _ & _ & -> & _). eapply enumerates_iff; [|apply enumerates_filter]. intros k Hk. cbn beta.
  unfold uppb, has_upper, fx, lower, upper, bounded_above, upper, AdModel.at_. rewrite a_t_eq. destruct (teq _ _ _); [apply relax_true|reflexivity].
Qed.
Lemma full_index_eq k : k < length us -> full_index a k = nth k us 0.
Proof. apply (@sp_full_index _ O minf pinf t cs xl xu gl gu deps jac hess a LX LG SD A). Qed.

Lemma no_fix_relax : a_t a = RELAX_BOUNDS -> a_fix a = [].
Proof. intros R. destruct (a_fix a) as [|n0 l0] eqn:E; auto. exfalso. assert (I : In n0 (a_fix a)) by (rewrite E; left; auto). apply fix_in in I. tauto. Qed.
Lemma get_bounds_eq relax :
  get_bounds O a relax xl xu gl gu =
  BD (map (fun k => lower O xl (nth k us 0)) (a_xlo a)) (map (fun k => upper O xu (nth k us 0)) (a_xup a))
     (map (lower O gl) (a_c a) ++ (if is_constraint (a_t a) then map (lower O xl) (a_fix a) else []))
     (map (fun k => lower O gl (nth k (a_d a) 0)) (a_dlo a)) (map (fun k => upper O gu (nth k (a_d a) 0)) (a_dup a)).
Proof.
  unfold get_bounds.
  assert (E : (if is_relax (a_t a) then relax_loop O relax (length (a_fix a)) 0 xl xu else (xl, xu)) = (xl, xu)).
  { destruct (is_relax (a_t a)) eqn:R; auto. rewrite no_fix_relax; [reflexivity|]. destruct (a_t a); try discriminate; auto. }
  rewrite E. f_equal; try reflexivity.
  - apply map_ext_in. intros k Hk. apply xlo_enum in Hk. rewrite full_index_eq by tauto. reflexivity.
  - apply map_ext_in. intros k Hk. apply xup_enum in Hk. rewrite full_index_eq by tauto. reflexivity.
Qed.

(** multipliers of bounds *)
Lemma nodup_map_nth (l : list nat) pos : NoDup l -> NoDup pos -> (forall p, In p pos -> p < length l) -> NoDup (map (fun k => nth k l 0) pos).
Proof.
  intros NL NP R. induction pos as [|p pos IH]; simpl; constructor.
  - rewrite in_map_iff. intros (q & E & I). inversion NP as [|? ? N1 N2]; subst. assert (p = q).
    { apply (proj1 (NoDup_nth l 0) NL); auto. - apply R; left; auto. - apply R; right; auto. }
    subst. tauto.
  - inversion NP; subst. apply IH; auto. intros; apply R; right; auto.
Qed.
Lemma sorted_bound (l : list nat) k : StronglySorted lt l -> (forall p, In p l -> p < k) -> length l <= k.
Proof.
  intros S R. rewrite <- (seq_length k 0). apply NoDup_incl_length; [apply sorted_nodup; auto|]. intros x Hx. apply in_seq. specialize (R x Hx). lia.
Qed.
Lemma resort_bound_spec P pos z junk : enumerates (length us) P pos -> length (velems (length pos) z) = length pos -> length junk = n ->
  let y := resort_bound O a pos z junk in
  length y = n /\
  (forall k, k < length pos -> nth (nth (nth k pos 0) us 0) y z0 = nth k (velems (length pos) z) z0) /\
  (forall i, i < n -> (forall k, k < length us -> nth k us 0 = i -> ~ P k) -> nth i y z0 = z0).
Proof.
  intros [ES EI] LZ LJ y. subst y. unfold resort_bound. rewrite a_n_eq.
  set (base := if length pos <? n then repeat z0 n else junk).
  assert (LB : length base = n) by (unfold base; destruct (_ <? _); [apply repeat_length|auto]).
  assert (EM : map (full_index a) pos = map (fun k => nth k us 0) pos).
  { apply map_ext_in. intros k Hk. apply EI in Hk. apply full_index_eq. tauto. }
  rewrite EM.
  assert (RG : forall p, In p pos -> p < length us) by (intros p Hp; apply EI in Hp; tauto).
  assert (ND : NoDup (map (fun k => nth k us 0) pos)).
  { apply nodup_map_nth; auto. apply us_pos. apply sorted_nodup; auto. }
  split; [rewrite put_length; auto|]. split.
  - intros k Hk. pose proof (@put_in _ ND (map (vat O z) (seq 0 (length pos))) base k) as PI. rewrite !map_length, seq_length in PI.
    specialize (PI eq_refl Hk). rewrite (@nth_map' _ _ _ k 0) in PI by auto. rewrite PI.
    + rewrite nth_fun by auto. apply vat_elems; auto.
    + intros p Hp. rewrite LB. apply in_map_iff in Hp. destruct Hp as (q & <- & Hq). apply us_pos. apply nth_In. auto.
  - intros i Hi N.
    assert (NI : ~ In i (map (fun k => nth k us 0) pos)).
    { rewrite in_map_iff. intros (k & E & I). apply EI in I. apply (N k); tauto. }
    rewrite put_out by auto. unfold base. destruct (length pos <? n) eqn:E; [apply nth_repeat|].
    exfalso. apply Nat.ltb_ge in E. apply NI.
    assert (LU : length us <= n) by (apply sorted_bound; [apply (@us_enum _ O minf pinf t cs xl xu gl gu deps jac hess a LX LG SD A)|apply us_pos]).
    (* pos has n elements below length us <= n : everything *)
    assert (INC : incl (seq 0 n) (map (fun k => nth k us 0) pos)).
    { apply NoDup_length_incl; auto.
      - rewrite seq_length, map_length. lia.
      - intros x Hx. apply in_map_iff in Hx. destruct Hx as (q & <- & Hq). apply in_seq. split; [lia|]. simpl. apply us_pos. apply nth_In; auto. }
    apply INC. apply in_seq. lia.
Qed.

(** constraints *)
Notation eqs := (filter (fx O gl gu) (seq 0 m)).
Lemma eqs_enum : enumerates m (tight O gl gu) eqs.
Proof. eapply enumerates_iff; [|apply enumerates_filter]. intros i Hi. reflexivity. Qed.
Lemma a_c_eq : a_c a = remove_deps eqs deps. Proof. apply ALL. Qed.
Lemma c_sorted : StronglySorted lt (a_c a).
Proof. rewrite a_c_eq. apply remove_deps_sorted; auto. apply eqs_enum. Qed.
Lemma c_in i : In i (a_c a) <-> exists k, k < length eqs /\ nth k eqs 0 = i /\ ~ In k deps.
Proof. rewrite a_c_eq. apply remove_deps_in; auto. Qed.
Lemma c_tight i : In i (a_c a) -> i < m /\ tight O gl gu i.
Proof. intros I. apply c_in in I. destruct I as (k & K1 & K2 & K3). apply eqs_enum. subst i. apply nth_In; auto. Qed.
Lemma c_pos : positions m (a_c a).
Proof. split; [apply sorted_nodup, c_sorted|]. intros p Hp. apply c_tight in Hp. tauto. Qed.
Lemma d_enum : enumerates m (fun i => ~ tight O gl gu i) (a_d a).
Proof.
  destruct ALL as (_ & _ & _ & _ & _ & _ & _ & _ & -> & _). eapply enumerates_iff; [|apply enumerates_filter]. intros i Hi.
  unfold ineq, tight, fx, lower, upper, AdModel.at_. rewrite negb_true_iff. destruct (teq _ _ _); intuition congruence.
Qed.
Lemma d_pos : positions m (a_d a).
Proof. eapply enumerates_positions, d_enum. Qed.
Lemma dlo_enum : enumerates (length (a_d a)) (fun k => bounded_below O minf gl (nth k (a_d a) 0)) (a_dlo a).
Proof. destruct ALL as (_ & _ & _ & _ & _ & _ & _ & _ & _ & -> & _). apply enumerates_filter. Qed.
Lemma dup_enum : enumerates (length (a_d a)) (fun k => bounded_above O pinf gu (nth k (a_d a) 0)) (a_dup a).
Proof. destruct ALL as (_ & _ & _ & _ & _ & _ & _ & _ & _ & _ & -> & _). apply enumerates_filter. Qed.
Lemma cd_disjoint i : In i (a_c a) -> In i (a_d a) -> False.
Proof. intros I J. apply c_tight in I. apply d_enum in J. tauto. Qed.

Lemma resort_g_spec corr rhs c d g : length g = m -> length (a_c a) <= length (velems (length (a_c a)) c) ->
  length (velems (length (a_d a)) d) = length (a_d a) ->
  let y := resort_g O a corr rhs c d (length (a_d a)) g in
  length y = m /\
  (forall k, k < length (a_c a) -> nth (nth k (a_c a) 0) y z0 =
     if corr then tadd O (nth k (velems (length (a_c a)) c) z0) (nth k rhs z0) else nth k (velems (length (a_c a)) c) z0) /\
  (forall k, k < length (a_d a) -> nth (nth k (a_d a) 0) y z0 = nth k (velems (length (a_d a)) d) z0) /\
  (forall i, ~ In i (a_c a) -> ~ In i (a_d a) -> nth i y z0 = nth i g z0).
Proof.
  intros L LC LD y. subst y. unfold resort_g. rewrite firstn_all.
  split; [rewrite !put_length; auto|]. split; [|split].
  - intros k Hk. rewrite put_out.
    + rewrite put_in; auto.
      * rewrite nth_fun by auto.
        assert (V : vat O c k = nth k (velems (length (a_c a)) c) z0).
        { destruct c as [s|l]; [apply vat_elems; auto; apply repeat_length|reflexivity]. }
        rewrite V. reflexivity.
      * apply c_pos.
      * rewrite map_length, seq_length. reflexivity.
      * rewrite L. apply c_pos.
    + intros J. eapply cd_disjoint; [|exact J]. apply nth_In; auto.
  - intros k Hk. rewrite put_in; auto.
    + rewrite nth_fun by auto. apply vat_elems; auto.
    + apply d_pos.
    + rewrite map_length, seq_length. reflexivity.
    + rewrite put_length, L. apply d_pos.
  - intros i N1 N2. rewrite !put_out by auto. reflexivity.
Qed.
End A.
End Gen.
