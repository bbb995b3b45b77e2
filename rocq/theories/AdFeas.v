(** C26/C27: the feasible set is unchanged, in double precision; C43: bound
    multipliers of fixed variables. *)
From Coq Require Import List Bool Arith ZArith Reals Lia Lra Sorted.
From Flocq Require Import Core Plus_error BinarySingleNaN.
From Verif Require Import Num VecModel VecProofs ExpModel ExpSpec ExpProofs AdModel AdSpec AdProofs AdMaps AdJac AdProps.
Import ListNotations.
Local Open Scope nat_scope.

(** ** subtraction is zero exactly for equal numbers *)
Lemma fl_eq_0 r : fl r = 0%R -> rnd r = 0%R.
Proof.
  unfold fl. pose proof big_pos. unfold Rmax, Rmin. destruct (Rle_dec big (rnd r)); destruct (Rle_dec (- big) _); intros; lra.
Qed.
Lemma rnd_sub_0 x y : nfin x = true -> nfin y = true -> rnd (key x - key y) = 0%R -> key x = key y.
Proof.
  intros Fx Fy H. destruct (Req_dec (key x) (key y)) as [E|E]; auto. exfalso. revert H.
  unfold rnd. unfold Rminus. rewrite !key_finite by auto.
  apply (round_plus_neq_0 radix2 (SpecFloat.fexp 53 1024) (round_mode mode_NE)).
  - apply generic_format_B2R.
  - apply generic_format_opp. apply generic_format_B2R.
  - rewrite !key_finite in E by auto. lra.
Qed.
Lemma nsub_zero g r : nfin r = true -> neqb (nsub g r) nzero = neqb g r.
Proof.
  intros Fr. apply eq_true_iff_eq. rewrite !neqb_iff. rewrite key_nzero.
  destruct g as [s|s| |s mm e H]; try (destruct r; discriminate).
  - destruct (nsub_fin (B754_zero s) r eq_refl Fr) as [N K]. rewrite K. split; intros (A1 & A2 & A3).
    + split; [reflexivity|]. split; [apply nfin_nnan; auto|]. apply rnd_sub_0; auto. apply fl_eq_0. exact A3.
    + split; [exact N|]. split; [reflexivity|]. rewrite A3. replace (key r - key r)%R with 0%R by lra. apply fl_0.
  - assert (E : nsub (B754_infinity s) r = B754_infinity s) by (destruct r; try discriminate; destruct s; reflexivity).
    rewrite E. pose proof big_pos as BP. split; intros (A1 & A2 & A3); exfalso.
    + destruct s; simpl in A3; lra.
    + apply key_finite_lt in Fr. rewrite <- A3 in Fr. destruct s; simpl in Fr; rewrite ?Rabs_Ropp in Fr; rewrite Rabs_right in Fr by lra; lra.
  - assert (E : nsub B754_nan r = B754_nan) by (destruct r; reflexivity). rewrite E. split; intros (A1 & _); discriminate.
  - destruct (nsub_fin (B754_finite s mm e H) r eq_refl Fr) as [N K]. rewrite K. split; intros (A1 & A2 & A3).
    + split; [reflexivity|]. split; [apply nfin_nnan; auto|]. apply rnd_sub_0; auto. apply fl_eq_0. exact A3.
    + split; [exact N|]. split; [reflexivity|]. rewrite A3. replace (key r - key r)%R with 0%R by lra. apply fl_0.
Qed.

Section Feas.
Variable lg : num -> num.
Notation O := (num_ops lg).
Variables (minf pinf : num) (t : treatment) (cs : bool) (xl xu gl gu : list num) (deps : list nat) (jac hess : list (nat * nat)) (a : adapter).
Hypothesis LX : length xu = length xl.
Hypothesis LG : length gu = length gl.
Hypothesis SD : StronglySorted lt deps.
Hypothesis A : get_spaces O minf pinf t cs xl xu gl gu deps jac hess = inl a.
(** fixed values and right-hand sides are finite numbers *)
Hypothesis FX : forall i, i < length xl -> tight O xl xu i -> nfin (lower O xl i) = true.
Hypothesis FG : forall i, i < length gl -> tight O gl gu i -> nfin (lower O gl i) = true.
Notation n := (length xl).
Notation m := (length gl).

(** what the user asked for: [v] satisfies the bounds of index i *)
Definition satisfies (lo up v : list num) (i : nat) : Prop :=
  (tight O lo up i -> neqb (nth i v nzero) (lower O lo i) = true) /\
  (~ tight O lo up i ->
     (bounded_below O minf lo i -> nle (lower O lo i) (nth i v nzero) = true) /\
     (bounded_above O pinf up i -> nle (nth i v nzero) (upper O up i) = true)).

(** what the algorithm enforces: c(x) = 0, bounds on x, bounds on d(x) *)
Definition algorithm_feasible (relax : num) (x fg fx : list num) : Prop :=
  let b := get_bounds O a relax xl xu gl gu in
  (forall p, p < length (a_xlo a) -> nle (nth p (b_xl b) nzero) (nth (nth p (a_xlo a) 0) x nzero) = true) /\
  (forall p, p < length (a_xup a) -> nle (nth (nth p (a_xup a) 0) x nzero) (nth p (b_xu b) nzero) = true) /\
  Forall (fun v => neqb v nzero = true) (c_values O a (b_rhs b) fg fx) /\
  (forall p, p < length (a_dlo a) -> nle (nth p (b_dl b) nzero) (nth (nth p (a_dlo a) 0) (d_values' O a fg) nzero) = true) /\
  (forall p, p < length (a_dup a) -> nle (nth (nth p (a_dup a) 0) (d_values' O a fg) nzero) (nth p (b_du b) nzero) = true).

Lemma nle_tight (l u v : num) : neqb l u = true -> (nle l v = true /\ nle v u = true <-> neqb v l = true).
Proof.
  rewrite !nle_iff, !neqb_iff. intros (A1 & A2 & A3). split.
  - intros ((B1 & B2 & B3) & (C1 & C2 & C3)). repeat split; auto. lra.
  - intros (B1 & B2 & B3). repeat split; auto; lra.
Qed.
Lemma neqb_refl_l (x y : num) : neqb x y = true -> neqb x x = true.
Proof. rewrite !neqb_iff. tauto. Qed.

(** The point the user sees is feasible for the user's problem exactly if the
    algorithm's point is feasible for the algorithm's problem. *)
Theorem C26_feasible_set relax x mem fg :
  length x = a_nvar a -> length mem = n -> length fg = m ->
  let fx := resort_x O a true (fix_values O a xl mem) (Dense x) in
  algorithm_feasible relax x fg fx <->
  (forall i, i < n -> satisfies xl xu fx i) /\
  (forall j, In j (a_c a) \/ In j (a_d a) -> satisfies gl gu fg j).
Proof.
  intros Lx Lm Lg fx.
  set (us := users O xl xu (final_t O xl xu gl gu t)).
  pose proof (@a_nvar_eq _ O minf pinf t cs xl xu gl gu deps jac hess a LX LG SD A) as NV. fold us in NV.
  pose proof (@us_enum _ O minf pinf t cs xl xu gl gu deps jac hess a LX LG SD A) as UE. fold us in UE.
  assert (LU : length x = length us) by congruence.
  assert (VX : forall k, k < length us -> nth (nth k us 0) fx nzero = nth k x nzero).
  { intros k Hk. exact (@resort_x_kept _ O minf pinf t cs xl xu gl gu deps jac hess a LX LG SD A true (fix_values O a xl mem) (Dense x) k LU Hk). }
  assert (VD : forall i, i < n -> ~ In i us -> nth i fx nzero = lower O xl i).
  { intros i Hi N. exact (@resort_x_dropped _ O minf pinf t cs xl xu gl gu deps jac hess a LX LG SD A true mem (Dense x) i Lm Hi N). }
  assert (LF : length fx = n) by exact (@resort_x_len _ O minf pinf t cs xl xu gl gu deps jac hess a LX LG SD A true (fix_values O a xl mem) (Dense x) LU).
  pose proof (@xlo_enum _ O minf pinf t cs xl xu gl gu deps jac hess a LX LG SD A) as EL. fold us in EL.
  pose proof (@xup_enum _ O minf pinf t cs xl xu gl gu deps jac hess a LX LG SD A) as EU. fold us in EU.
  pose proof (@dlo_enum _ O minf pinf t cs xl xu gl gu deps jac hess a LX LG SD A) as DL.
  pose proof (@dup_enum _ O minf pinf t cs xl xu gl gu deps jac hess a LX LG SD A) as DU.
  pose proof (@d_enum _ O minf pinf t cs xl xu gl gu deps jac hess a LX LG SD A) as DE.
  pose proof (@c_tight _ O minf pinf t cs xl xu gl gu deps jac hess a LX LG SD A) as CT.
  pose proof (@fix_in _ O minf pinf t cs xl xu gl gu deps jac hess a LX LG SD A) as FI.
  destruct (@C27_values _ O minf pinf t cs xl xu gl gu deps jac hess LX LG a SD A relax fg fx Lg LF) as [CV DV].
  unfold algorithm_feasible. cbv zeta. rewrite CV, DV. clear CV DV.
  pose proof (@get_bounds_eq _ O minf pinf t cs xl xu gl gu deps jac hess a LX LG SD A relax) as GB. rewrite GB. clear GB. cbn [b_xl b_xu b_rhs b_dl b_du]. fold us.
  rewrite Forall_app.
  assert (MAPN : forall (f : nat -> num) l p, p < length l -> nth p (map f l) nzero = f (nth p l 0)) by (intros; apply nth_map'; auto).
  assert (IDX : forall (l : list nat) k, In k l -> exists p, p < length l /\ nth p l 0 = k) by (intros l k I; apply (In_nth _ _ 0) in I; exact I).
  split.
  - intros (H1 & H2 & (H3 & H3') & H4 & H5). split.
    + intros i Hi. destruct (in_dec Nat.eq_dec i us) as [I|I].
      * apply IDX in I. destruct I as (k & K1 & K2). subst i. split.
        -- intros TT. rewrite VX by auto. destruct (a_t a) eqn:ET.
           ++ exfalso. assert (IN : In (nth k us 0) us) by (apply nth_In; auto). apply UE in IN. destruct IN as [_ IN]. apply IN. split; [exact TT|reflexivity].
           ++ exfalso. assert (IN : In (nth k us 0) us) by (apply nth_In; auto). apply UE in IN. destruct IN as [_ IN]. apply IN. split; [exact TT|reflexivity].
           ++ rewrite <- VX by auto. cbn [is_constraint] in H3'. rewrite Forall_map in H3'. rewrite Forall_forall in H3'.
              rewrite <- nsub_zero by (apply FX; auto). apply H3'. apply FI. repeat split; auto. discriminate.
           ++ apply nle_tight with (u := upper O xu (nth k us 0)); [exact TT|]. split.
              ** assert (IN : In k (a_xlo a)) by (apply EL; split; auto; unfold has_lower; rewrite TT; auto).
                 apply IDX in IN. destruct IN as (p & P1 & P2). specialize (H1 p P1). rewrite MAPN, P2 in H1 by auto. exact H1.
              ** assert (IN : In k (a_xup a)) by (apply EU; split; auto; unfold has_upper; rewrite TT; auto).
                 apply IDX in IN. destruct IN as (p & P1 & P2). specialize (H2 p P1). rewrite MAPN, P2 in H2 by auto. exact H2.
        -- intros NT. assert (NQ : teq O (lower O xl (nth k us 0)) (upper O xu (nth k us 0)) = false) by (unfold tight in NT; destruct (teq O _ _); congruence).
           rewrite VX by auto. split; intros B.
           ++ assert (IN : In k (a_xlo a)) by (apply EL; split; auto; unfold has_lower; rewrite NQ; auto).
              apply IDX in IN. destruct IN as (p & P1 & P2). specialize (H1 p P1). rewrite MAPN, P2 in H1 by auto. exact H1.
           ++ assert (IN : In k (a_xup a)) by (apply EU; split; auto; unfold has_upper; rewrite NQ; auto).
              apply IDX in IN. destruct IN as (p & P1 & P2). specialize (H2 p P1). rewrite MAPN, P2 in H2 by auto. exact H2.
      * split.
        -- intros TT. rewrite VD by auto. exact (neqb_refl_l _ _ TT).
        -- intros NT. exfalso. apply I. apply UE. split; auto. tauto.
    + intros j [I|I].
      * destruct (CT j I) as [J1 J2]. split; [|tauto]. intros _. rewrite <- nsub_zero by (apply FG; auto).
        rewrite Forall_map, Forall_forall in H3. apply H3. exact I.
      * pose proof I as I'. apply DE in I. destruct I as [J1 J2]. split; [tauto|]. intros _. apply IDX in I'. destruct I' as (k & K1 & K2). split; intros B.
        -- assert (IN : In k (a_dlo a)) by (apply DL; split; auto; rewrite K2; auto).
           apply IDX in IN. destruct IN as (p & P1 & P2). specialize (H4 p P1). rewrite !MAPN in H4 by (rewrite ?P2; auto). rewrite P2, K2 in H4. exact H4.
        -- assert (IN : In k (a_dup a)) by (apply DU; split; auto; rewrite K2; auto).
           apply IDX in IN. destruct IN as (p & P1 & P2). specialize (H5 p P1). rewrite !MAPN in H5 by (rewrite ?P2; auto). rewrite P2, K2 in H5. exact H5.
  - intros (HX & HG).
    assert (RG : forall k, k < length us -> nth k us 0 < n) by (intros k Hk; apply UE; apply nth_In; auto).
    split; [|split; [|split; [split|split]]].
    + intros p Hp. rewrite MAPN by auto. assert (IN : In (nth p (a_xlo a) 0) (a_xlo a)) by (apply nth_In; auto). apply EL in IN. destruct IN as [K1 K2].
      set (k := nth p (a_xlo a) 0) in *. rewrite <- VX by auto. destruct (HX _ (RG k K1)) as [S1 S2]. unfold has_lower in K2.
      destruct (teq O (lower O xl (nth k us 0)) (upper O xu (nth k us 0))) eqn:TQ.
      * apply (proj2 (nle_tight _ _ _ TQ) (S1 TQ)).
      * apply S2; auto. unfold tight. congruence.
    + intros p Hp. rewrite MAPN by auto. assert (IN : In (nth p (a_xup a) 0) (a_xup a)) by (apply nth_In; auto). apply EU in IN. destruct IN as [K1 K2].
      set (k := nth p (a_xup a) 0) in *. rewrite <- VX by auto. destruct (HX _ (RG k K1)) as [S1 S2]. unfold has_upper in K2.
      destruct (teq O (lower O xl (nth k us 0)) (upper O xu (nth k us 0))) eqn:TQ.
      * apply (proj2 (nle_tight _ _ _ TQ) (S1 TQ)).
      * apply S2; auto. unfold tight. congruence.
    + rewrite Forall_map, Forall_forall. intros j I. destruct (CT j I) as [J1 J2]. destruct (HG j (or_introl I)) as [S1 _].
      change (neqb (nsub (nth j fg nzero) (lower O gl j)) nzero = true). rewrite nsub_zero by (apply FG; auto). apply S1; auto.
    + destruct (is_constraint (a_t a)); [|constructor]. rewrite Forall_map, Forall_forall. intros i I. apply FI in I. destruct I as (I1 & I2 & _).
      destruct (HX i I1) as [S1 _]. change (neqb (nsub (nth i fx nzero) (lower O xl i)) nzero = true). rewrite nsub_zero by (apply FX; auto). apply S1; auto.
    + intros p Hp. rewrite MAPN by auto. assert (IN : In (nth p (a_dlo a) 0) (a_dlo a)) by (apply nth_In; auto). apply DL in IN. destruct IN as [K1 K2].
      set (k := nth p (a_dlo a) 0) in *. rewrite MAPN by auto. assert (ID : In (nth k (a_d a) 0) (a_d a)) by (apply nth_In; auto).
      destruct (HG _ (or_intror ID)) as [_ S2]. apply S2; auto. apply DE in ID. tauto.
    + intros p Hp. assert (IN : In (nth p (a_dup a) 0) (a_dup a)) by (apply nth_In; auto). apply DU in IN. destruct IN as [K1 K2].
      rewrite !MAPN by auto. set (k := nth p (a_dup a) 0) in *. assert (ID : In (nth k (a_d a) 0) (a_d a)) by (apply nth_In; auto).
      destruct (HG _ (or_intror ID)) as [_ S2]. apply S2; auto. apply DE in ID. tauto.
Qed.
End Feas.
