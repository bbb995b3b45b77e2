(** C88: the structure the reducer reports; C89: what it evaluates; C90: what the original TNLP is told. *)
From Coq Require Import Reals ZArith List Arith Bool Lia Lra Permutation Sorted.
From Verif Require Import TredModel TredSpec TredProofs.
Import ListNotations.

Section Main.
Context {W V : Type}.
Variables (T : tnlp W V) (g xl xu fx : list Z) (n m nzh : nat) (ir jc : list Z) (zero huge mhuge : V).
Hypothesis (WT : well T n m nzh ir jc) (VG : valid g m).
Notation reach := (reach T g xl xu fx).

Lemma reach_info i s r w : reach i s r -> exists o w' r', get_info T w r = Some (o, w', r') /\
  (forall a, o = Some a -> a = (n, length (kept g m), nk (jf (flags g 0 m) ir), nzh, C_STYLE)).
Proof.
  intros H. pose proof (reach_inv T g xl xu fx n m nzh ir jc WT VG _ _ _ H) as I. unfold kept. rewrite kept_len. destruct i.
  - destruct (info_ready T g xl xu fx n m nzh ir jc WT w s r I) as (o & w' & r' & Q & _ & A). eauto 6.
  - destruct I as (F & J & ->). destruct (info_fresh T g xl xu fx n m nzh ir jc WT VG w r F J) as (o & w' & r' & Q & A).
    exists o, w', r'. split; auto. intros a Ea. apply (A a Ea).
Qed.
Lemma nk_rows fl l : nk (jf fl l) = length (filter (fun r => negb (nth (Z.to_nat r) fl false)) l).
Proof. unfold jf. induction l as [|r l IH]; cbn; auto. unfold rowflag at 1. destruct (nth (Z.to_nat r) fl false); cbn; auto. Qed.
Lemma nk_jf : nk (jf (flags g 0 m) ir) = length (filter (fun r => negb (skipped g (Z.to_nat r))) ir).
Proof.
  rewrite nk_rows. f_equal. pose proof (w_rows _ _ _ _ _ _ WT) as HR. clear - HR. induction HR as [|r l Hr HR IH]; cbn [filter]; auto.
  rewrite flags_nth by lia. destruct (skipped g (Z.to_nat r)); cbn [negb length filter]; congruence.
Qed.
(** C88: in every reachable state get_nlp_info is defined, and if it answers true it reports as many variables as before, the number of
    kept constraints, the number of Jacobian entries in them. *)
Theorem C88_info : forall i s r w, reach i s r -> exists o w' r', get_info T w r = Some (o, w', r') /\
  (forall a, o = Some a -> a = (n, length (kept g m), length (filter (fun r => negb (skipped g (Z.to_nat r))) ir), nzh, C_STYLE)).
Proof. intros i s r w H. rewrite <- nk_jf. eapply reach_info; eauto. Qed.

(** C88: bounds. Those of kept constraints are the original ones; a fixed variable has its starting value as both bounds; other variables
    keep their bounds except the ones to be left out. *)
Theorem C88_bounds : forall s r gl gu w, reach true s r -> valid xl n -> valid xu n -> valid fx n ->
  length gl = length (kept g m) -> length gu = length (kept g m) ->
  exists o w', get_bounds T zero huge mhuge gl gu w r = Some (o, w') /\
   forall xl' xu' gl' gu', o = Some (xl', xu', gl', gu') ->
   exists xlo xuo glo guo xs w1, t_bounds T w = (Some (xlo, xuo, glo, guo), w1) /\
     gl' = keep_of g glo /\ gu' = keep_of g guo /\ length xl' = n /\ length xu' = n /\
     (if match fx with [] => true | _ => false end then w' = w1 else exists a b c, t_start T true false false w1 = (Some (xs, a, b, c), w')) /\
     forall j, (j < n)%nat ->
       nth j xl' zero = (if skipped fx j then nth j xs zero else if skipped xl j then mhuge else nth j xlo zero) /\
       nth j xu' zero = (if skipped fx j then nth j xs zero else if skipped xu j then huge else nth j xuo zero).
Proof.
  intros s r gl gu w H VL VU VF L1 L2. pose proof (reach_inv T g xl xu fx n m nzh ir jc WT VG _ _ _ H) as (E1 & E2 & E3 & E4 & E5 & _).
  unfold kept in *. rewrite kept_len in *. unfold get_bounds. destruct (t_bounds T w) as [[[[[xlo xuo] glo] guo]|] w1] eqn:Q.
  2: { eexists. eexists. split; [reflexivity|]. discriminate. }
  destruct (w_bounds _ _ _ _ _ _ WT _ _ _ _ _ _ Q) as (La & Lb & Lc & Ld).
  rewrite E1, E2, E3, E5. rewrite !gather_keep by auto.
  assert (ED : forall xs, exists xl' xu', edit_bounds zero huge mhuge 0 xlo xuo xs (isort xl) (isort xu) (isort fx) = (xl', xu') /\
    length xl' = n /\ length xu' = n /\ forall j, (j < n)%nat ->
       nth j xl' zero = (if skipped fx j then nth j xs zero else if skipped xl j then mhuge else nth j xlo zero) /\
       nth j xu' zero = (if skipped fx j then nth j xs zero else if skipped xu j then huge else nth j xuo zero)).
  { intros xs. destruct (edit_ok zero huge mhuge xl xu fx xlo xuo xs 0 _ _ _ (eq_trans Lb (eq_sym La)) (inv_start xl n VL) (inv_start xu n VU) (inv_start fx n VF)) as (a & b & Q1 & Q2 & Q3 & Q4).
    exists a, b. rewrite La in *. auto. }
  assert (FE : isort fx = [] <-> fx = []).
  { split; [|intros ->; auto]. intros E. pose proof (isort_perm fx) as P. rewrite E in P. apply Permutation_nil in P. auto. }
  destruct (isort fx) as [|f0 fs] eqn:EF.
  - destruct (ED []) as (a & b & Q1 & Q2 & Q3 & Q4). rewrite Q1. eexists. eexists. split; [reflexivity|].
    intros xl' xu' gl' gu' QQ. injection QQ as <- <- <- <-. exists xlo, xuo, glo, guo, [], w1.
    rewrite (proj1 FE eq_refl). repeat split; auto; rewrite (proj1 FE eq_refl) in Q4; apply Q4; auto.
  - destruct (t_start T true false false w1) as [[[[[xs ?] ?] ?]|] w2] eqn:QS.
    + destruct (ED xs) as (a & b & Q1 & Q2 & Q3 & Q4). rewrite Q1. eexists. eexists. split; [reflexivity|].
      intros xl' xu' gl' gu' QQ. injection QQ as <- <- <- <-. exists xlo, xuo, glo, guo, xs, w1.
      destruct fx as [|f1 fx'] eqn:Efx; [destruct FE as [_ X]; specialize (X eq_refl); discriminate|]. repeat split; eauto 6; apply Q4; auto.
    + eexists. eexists. split; [reflexivity|]. discriminate.
Qed.

(** C88: scaling factors, linearity and starting multipliers of the kept constraints are the original ones; the rest is handed on. *)
Theorem C88_scaling_linearity_start : forall s r w, reach true s r ->
  (forall gs, length gs = length (kept g m) -> get_scaling T gs w r = Some (match t_scal T w with
      | (Some (o, x, q), w) => (Some (o, x, option_map (keep_of g) q), w) | (None, w) => (None, w) end)) /\
  (forall out, length out = length (kept g m) -> get_linearity T out w r = Some (match t_glin T w with
      | (Some l, w) => (Some (keep_of g l), w) | (None, w) => (None, w) end)) /\
  (forall ix iz il lam, length lam = length (kept g m) -> get_start T ix iz il lam w r = Some (match t_start T ix iz il w with
      | (Some (x, zl, zu, l), w) => (Some (x, zl, zu, if il then keep_of g l else lam), w) | (None, w) => (None, w) end)).
Proof.
  intros s r w H. pose proof (reach_inv T g xl xu fx n m nzh ir jc WT VG _ _ _ H) as (E1 & E2 & E3 & E4 & E5 & _).
  unfold kept. rewrite kept_len. split; [|split].
  - intros gs L. unfold get_scaling. destruct (t_scal T w) as [[[[o x] [q|]]|] w1] eqn:Q; cbn; auto.
    rewrite E5, gather_keep; auto. eapply (w_scal _ _ _ _ _ _ WT); eauto.
  - intros out L. unfold get_linearity. destruct (t_glin T w) as [[l|] w1] eqn:Q; auto.
    rewrite E5, gather_keep; auto. eapply (w_glin _ _ _ _ _ _ WT); eauto.
  - intros ix iz il lam L. unfold get_start. destruct (t_start T ix iz il w) as [[[[[x zl] zu] l]|] w1] eqn:Q; auto. destruct il; auto.
    rewrite E5, gather_keep; auto. eapply (w_start _ _ _ _ _ _ WT); eauto.
Qed.

(** C89: constraint values. One call of the original function with the same arguments; the values of the kept constraints. *)
Theorem C89_constraints : forall s r w x new_x out, reach true s r -> length out = length (kept g m) ->
  eval_g T x new_x out w r = Some (match t_g T x new_x w with (Some v, w) => (Some (keep_of g v), w) | (None, w) => (None, w) end).
Proof.
  intros s r w x b out H L. pose proof (reach_inv T g xl xu fx n m nzh ir jc WT VG _ _ _ H) as (E1 & E2 & E3 & E4 & E5 & _).
  unfold kept in L. rewrite kept_len in L. unfold eval_g. destruct (t_g T x b w) as [[v|] w1] eqn:Q; auto.
  rewrite E5, gather_keep; auto. eapply (w_g _ _ _ _ _ _ WT); eauto.
Qed.
End Main.

Section Jac.
Context {W : Type}.
Variables (T : tnlp W R) (g xl xu fx : list Z) (n m nzh : nat) (ir jc : list Z).
Hypothesis (WT : well T n m nzh ir jc) (VG : valid g m).
Notation reach := (reach T g xl xu fx).
Notation nred := (length (filter (fun r => negb (skipped g (Z.to_nat r))) ir)).
(** C89: the Jacobian. With arrays of the reported length, nothing is written outside; structure and values, asked for at any time,
    together are the Jacobian of the kept constraints: row k is the row of the k-th kept constraint. *)
Theorem C89_jacobian_structure_defined : forall s r w iRow jCol, reach true s r -> length iRow = nred -> length jCol = nred ->
  exists o w' r', eval_jac_structure T iRow jCol w r = Some (o, w', r') /\ 
    (forall a b, o = Some (a, b) -> length a = nred /\ length b = nred /\ Forall (fun i => (0 <= i < Z.of_nat (length (kept g m)))%Z) a).
Proof.
  intros s r w iRow jCol H L1 L2. pose proof (reach_inv T g xl xu fx n m nzh ir jc WT VG _ _ _ H) as I.
  rewrite <- (nk_jf T g n m nzh ir jc WT) in *.
  destruct (struct_ready T g xl xu fx n m nzh ir jc WT w s r iRow jCol I L1 L2) as (o & w' & r' & Q & A).
  exists o, w', r'. split; auto. intros a b E. destruct (A a b E) as [-> ->].
  assert (JL : length (jf (flags g 0 m) ir) = length ir) by (unfold jf; apply map_length).
  rewrite !select_len by (rewrite ?map_length, ?JL; auto; apply (w_len _ _ _ _ _ _ WT)). repeat split; auto.
  assert (RK : forall fl r0, (r0 < length fl)%nat -> nth r0 fl false = false -> (rank fl r0 < nk fl)%nat).
  { clear. induction fl as [|b fl IH]; intros r0 Hl Hf; cbn in *; [lia|]. destruct r0 as [|r0].
    - subst b. cbn. lia. - destruct b; cbn; [apply IH|specialize (IH r0)]; auto; try lia. assert (rank fl r0 < nk fl)%nat by (apply IH; auto; lia). lia. }
  unfold kept. rewrite kept_len.
  pose proof (rows_in T g n m nzh ir jc WT) as HR. clear - HR RK. unfold inrows in HR. induction HR as [|r ir0 Hr HR IH]; [constructor|].
  change (jf (flags g 0 m) (r :: ir0)) with (rowflag (flags g 0 m) r :: jf (flags g 0 m) ir0). cbn [map select].
  destruct (rowflag (flags g 0 m) r) eqn:Er; auto. constructor; auto. unfold rowflag in Er.
  assert (rank (flags g 0 m) (Z.to_nat r) < nk (flags g 0 m))%nat by (apply RK; auto; lia). lia.
Qed.
Theorem C89_jacobian : forall s1 r1 w1 iRow jCol a b w1' r1' s2 r2 x new_x values w2,
  reach true s1 r1 -> length iRow = nred -> length jCol = nred -> eval_jac_structure T iRow jCol w1 r1 = Some (Some (a, b), w1', r1') ->
  reach true true r2 -> s2 = true -> length values = nred ->
  match t_jacv T x new_x w2 with
  | (None, w) => eval_jac_values T x new_x values w2 r2 = Some (None, w)
  | (Some v, w) => exists v', eval_jac_values T x new_x values w2 r2 = Some (Some v', w) /\ length v' = nred /\
      forall k i c, nth_error (kept g m) k = Some i -> jmat a b v' (Z.of_nat k) c = jmat ir jc v (Z.of_nat i) c
  end.
Proof.
  intros s1 r1 w1 iRow jCol a b w1' r1' s2 r2 x nx values w2 H1 L1 L2 Q H2 _ L3.
  pose proof (reach_inv T g xl xu fx n m nzh ir jc WT VG _ _ _ H1) as I1.
  pose proof (reach_inv T g xl xu fx n m nzh ir jc WT VG _ _ _ H2) as (_ & _ & _ & _ & E5 & _ & _ & _ & E9).
  rewrite <- (nk_jf T g n m nzh ir jc WT) in *.
  destruct (struct_ready T g xl xu fx n m nzh ir jc WT w1 s1 r1 iRow jCol I1 L1 L2) as (o & w' & r' & Q' & A).
  rewrite Q' in Q. injection Q as -> _ _. destruct (A a b eq_refl) as [-> ->]. clear A Q'.
  unfold eval_jac_values. destruct (t_jacv T x nx w2) as [[v|] w] eqn:QV; auto. rewrite (E9 eq_refl).
  pose proof (w_jacv _ _ _ _ _ _ WT _ _ _ _ _ QV) as LV.
  assert (JL : length (jf (flags g 0 m) ir) = length ir) by (unfold jf; apply map_length).
  rewrite drop_posns by congruence. unfold overwrite. rewrite select_len by congruence. rewrite L3, Nat.leb_refl.
  assert (S1 : skipn (nk (jf (flags g 0 m) ir)) values = []) by (rewrite <- L3; apply skipn_all).
  rewrite S1, app_nil_r. eexists. split; [reflexivity|]. split; [apply select_len; congruence|].
  intros k i c Hk. apply kept_rank in Hk. destruct Hk as (Hi & Hs & ->). rewrite Nat.sub_0_r.
  apply jmat_select; auto.
  - rewrite flags_nth by lia. auto.
  - rewrite flags_len. lia.
  - eapply rows_in; eauto.
  - apply (w_len _ _ _ _ _ _ WT).
Qed.

(** C89: the Hessian of the Lagrangian is that of the original problem with multiplier zero for the constraints left out, and with these
    multipliers the original Lagrangian is the one of the reduced problem. *)
Theorem C89_hessian : forall s r w x new_x sigma lam new_lam, reach true s r -> length lam = length (kept g m) ->
  exists e, extends 0%R g m lam e /\ eval_h T 0%R x new_x sigma lam new_lam w r = Some (t_h T x new_x sigma e new_lam w).
Proof.
  intros s r w x nx sg lam nl H L. pose proof (reach_inv T g xl xu fx n m nzh ir jc WT VG _ _ _ H) as (_ & _ & _ & _ & E5 & _).
  destruct (expand_extends 0%R g m lam L) as (e & Q & E). exists e. split; auto. unfold eval_h. rewrite E5, Q. auto.
Qed.
Lemma dot_select : forall fl (e v : list R), length e = length fl -> length v = length fl -> (forall i, nth_error fl i = Some true -> nth_error e i = Some 0%R) ->
  dot e v = dot (select fl e) (select fl v).
Proof.
  induction fl as [|b fl IH]; intros e v L1 L2 Z; destruct e as [|x e]; try discriminate; destruct v as [|y v]; try discriminate; cbn; auto.
  rewrite (IH e v) by (auto; intros i Hi; apply (Z (Datatypes.S i)); auto). destruct b; cbn; auto.
  specialize (Z 0%nat eq_refl). injection Z as ->. lra.
Qed.
Theorem C89_lagrangian : forall lam e v, extends 0%R g m lam e -> length v = m -> dot e v = dot lam (keep_of g v).
Proof.
  intros lam e v (L & K & Z) LV. rewrite <- K, !keep_select, L, LV. apply dot_select; rewrite ?flags_len; auto.
  intros i Hi. assert (Hm : (i < m)%nat) by (rewrite <- (flags_len g 0 m); apply nth_error_Some; congruence).
  apply Z; auto. rewrite <- (flags_nth g m i Hm). rewrite (nth_error_nth _ _ _ Hi). auto.
Qed.

(** C90: finalize_solution of the original TNLP is called once, with x, z_L, z_U and the objective value it was given, the values of
    all constraints of the original problem at x, and multipliers that are zero for the constraints left out. *)
Theorem C90_finalize : forall s r w junk x zl zu lam obj v w1, reach true s r -> length lam = length (kept g m) -> t_g T x true w = (Some v, w1) ->
  exists e, extends 0%R g m lam e /\ finalize T 0%R junk x zl zu lam obj w r = Some (t_fin T x zl zu v e obj w1).
Proof.
  intros s r w junk x zl zu lam obj v w1 H L Q. pose proof (reach_inv T g xl xu fx n m nzh ir jc WT VG _ _ _ H) as (_ & _ & _ & _ & E5 & _).
  destruct (expand_extends 0%R g m lam L) as (e & Q1 & E). exists e. split; auto. unfold finalize. rewrite Q, E5, Q1. auto.
Qed.
End Jac.

(** ** Where it ends *)
(** A TNLP in Fortran style: the rows of the Jacobian are counted without the offset. If the last constraint occurs in the Jacobian,
    get_nlp_info reads behind the end of g_keep_map_, whatever is to be left out. *)
Lemma keep_map_len : forall m i sk c, length (keep_map i m sk c) = m.
Proof. induction m as [|m IH]; intros i sk c; cbn; auto. destruct sk as [|a sk]; cbn; rewrite ?IH; auto. destruct (a =? i)%Z; cbn; rewrite IH; auto. Qed.
Lemma count_rows_out km ir : In (Z.of_nat (length km)) ir -> count_rows km ir = None.
Proof.
  induction ir as [|r ir IH]; cbn; [intros []|]. intros [->|H].
  - unfold map_at. destruct (Z.ltb_spec (Z.of_nat (length km)) 0); [lia|]. rewrite Nat2Z.id.
    assert (nth_error km (length km) = None) as -> by (apply nth_error_None; lia). auto.
  - rewrite (IH H). destruct (map_at km r) as [[|]|]; auto.
Qed.
Theorem C88_fortran_style_refuted : forall W V (T : tnlp W V) g xl xu fx junk w n m nzj nzh w1 ir jc w2,
  t_info T w = (Some (n, m, nzj, nzh, FORTRAN_STYLE), w1) -> t_jacs T w1 = (Some (ir, jc), w2) -> In (Z.of_nat m) ir ->
  get_info T w (new_red g xl xu fx junk) = None.
Proof.
  intros W V T g xl xu fx [[[[mo nzo] st] nr] ns] w n m nzj nzh w1 ir jc w2 Q1 Q2 HI. unfold get_info. rewrite Q1. cbn [new_red r_m]. rewrite Q2.
  rewrite count_rows_out; auto. rewrite keep_map_len. auto.
Qed.
(** An example TNLP: two variables, three constraints, entries (0,0) (1,1) (2,0) (2,1) in C style; the state is the log of the
    multipliers and constraint values it is told at the end *)
Definition ex (st : style) (dup : bool) : tnlp (list (list R)) R :=
  let o := offset st in
  Tnlp _ _ (fun w => (Some (2, 3, 4, 0, st)%nat, w)) (fun w => (Some ([0; 0], [1; 1], [1; 2; 3], [4; 5; 6])%R, w)) (fun w => (None, w)) (fun w => (None, w))
    (fun _ _ _ w => (Some ([7; 8], [], [], [1; 2; 3])%R, w)) (fun x _ w => (Some [nth 0 x 0; nth 1 x 0; nth 0 x 0 + nth 1 x 0]%R, w))
    (fun w => (Some ([0 + o; 1 + o; 2 + o; 2 + o], [0 + o; 1 + o; 0 + o; 1 + o])%Z, w)) (fun x _ w => (Some [1; 1; 1; 1]%R, w))
    (fun _ _ _ l _ w => (Some l, w)) (fun x _ _ g l _ w => g :: l :: w).
Lemma ex_well : well (ex C_STYLE false) 2 3 0 [0; 1; 2; 2]%Z [0; 1; 0; 1]%Z.
Proof.
  constructor; cbn; intros; repeat match goal with H : (_, _) = _ |- _ => injection H as; subst end; cbn; auto.
  - repeat constructor; lia.
  - discriminate.
  - discriminate.
Qed.
Definition exr (g : list Z) : red := new_red g [1%Z] [0%Z; 1%Z] [0%Z] (0, 0, C_STYLE, 0, 0)%nat.
Definition exr1 (g : list Z) : red := match get_info (ex C_STYLE false) [] (exr g) with Some (_, _, r) => r | None => exr g end.
Example C88_nonvacuous : valid [1%Z] 3 /\ reach (ex C_STYLE false) [1%Z] [1%Z] [0%Z; 1%Z] [0%Z] true false (exr1 [1%Z]) /\
  get_info (ex C_STYLE false) [] (exr [1%Z]) = Some (Some (2, 2, 3, 0, C_STYLE)%nat, [], exr1 [1%Z]) /\
  eval_g (ex C_STYLE false) [5; 6]%R true [0; 0]%R [] (exr1 [1%Z]) = Some (Some [5; 5 + 6]%R, []) /\
  get_bounds (ex C_STYLE false) 0%R 100%R (-100)%R [0; 0]%R [0; 0]%R [] (exr1 [1%Z]) = Some (Some ([7; -100], [7; 100], [1; 3], [4; 6])%R, []) /\
  finalize (ex C_STYLE false) 0%R [] [5; 6]%R [] [] [8; 9]%R 0%R [] (exr1 [1%Z]) = Some [[5; 6; 5 + 6]; [8; 0; 9]]%R.
Proof.
  split; [split; [repeat constructor; cbn; tauto|repeat constructor; lia]|]. split.
  - eapply (R_info _ _ _ _ _ false false (exr [1%Z]) []); [apply R_new|reflexivity].
  - repeat split; reflexivity.
Qed.
(** Fortran style again, without running out of bounds: the entry in the first constraint (left out) is counted in the second one, so one
    nonzero too many is announced, and the array for the values is not filled. *)
Definition exf : tnlp unit R :=
  Tnlp _ _ (fun w => (Some (1, 2, 1, 0, FORTRAN_STYLE)%nat, w)) (fun w => (None, w)) (fun w => (None, w)) (fun w => (None, w))
    (fun _ _ _ w => (None, w)) (fun x _ w => (None, w)) (fun w => (Some ([1], [1])%Z, w)) (fun x _ w => (Some [1]%R, w))
    (fun _ _ _ l _ w => (Some l, w)) (fun x _ _ g l _ w => w).
Theorem C88_fortran_count_refuted : forall junk, exists r,
  get_info exf tt (new_red [1%Z] [] [] [] junk) = Some (Some (1, 1, 1, 0, FORTRAN_STYLE)%nat, tt, r) /\
  (forall a b, exists r', eval_jac_structure exf [a] [b] tt r = Some (Some ([a], [b]), tt, r')).
Proof. intros [[[[mo nzo] st] nr] ns]. eexists. split; [reflexivity|]. intros a b. eexists. reflexivity. Qed.
(** and with the second constraint left out, eval_jac_g writes behind the end of the arrays *)
Theorem C88_fortran_overflow_refuted : forall junk, exists r,
  get_info exf tt (new_red [2%Z] [] [] [] junk) = Some (Some (1, 1, 0, 0, FORTRAN_STYLE)%nat, tt, r) /\
  eval_jac_structure exf [] [] tt r = None.
Proof. intros [[[[mo nzo] st] nr] ns]. eexists. split; reflexivity. Qed.
(** A constraint listed twice: the others behind it are not left out. *)
Theorem C88_duplicates_refuted : exists r a w', get_info (ex C_STYLE false) [] (exr [0; 0; 2]%Z) = Some (Some a, w', r) /\
  a = (2, 2, 3, 0, C_STYLE)%nat /\ length (kept [0; 0; 2]%Z 3) = 1%nat.
Proof. eexists. eexists. eexists. split; [reflexivity|]. split; reflexivity. Qed.
(** If eval_jac_g fails in the first get_nlp_info, a second one answers true with a number of nonzeros that has never been set. *)
Theorem C88_retry_refuted : forall W V (T : tnlp W V) g xl xu fx mo nzo st nr ns w0 n m nzj nzh w1 w2 w3,
  t_info T w0 = (Some (n, m, nzj, nzh, C_STYLE), w1) -> t_jacs T w1 = (None, w2) -> t_info T w2 = (Some (n, m, nzj, nzh, C_STYLE), w3) ->
  exists r r' k, get_info T w0 (new_red g xl xu fx (mo, nzo, st, nr, ns)) = Some (None, w2, r) /\
    get_info T w2 r = Some (Some (n, k, nr, nzh, C_STYLE), w3, r').
Proof.
  intros W V T g xl xu fx mo nzo st nr ns w0 n m nzj nzh w1 w2 w3 Q1 Q2 Q3. unfold get_info at 1. rewrite Q1. cbn [new_red r_m]. rewrite Q2.
  eexists. eexists. eexists. split; [reflexivity|]. unfold get_info. rewrite Q3. reflexivity.
Qed.

Print Assumptions C88_info.
Print Assumptions C88_bounds.
Print Assumptions C88_scaling_linearity_start.
Print Assumptions C88_fortran_style_refuted.
Print Assumptions C89_jacobian.
Print Assumptions C89_lagrangian.
Print Assumptions C90_finalize.
