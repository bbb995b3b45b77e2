(** Proofs for C31, C32, C46 on IEEE doubles. *)
From Coq Require Import List Bool ZArith Reals Lra Lia.
From Flocq Require Import Core BinarySingleNaN Plus_error.
From Verif Require Import Num VecModel InitModel InitSpec.
Import ListNotations.
Local Open Scope R_scope.

Lemma rnd_sub_neq x y : nfin x = true -> nfin y = true -> key x <> key y -> rnd (key x - key y) <> 0.
Proof.
  intros Fx Fy N. rewrite !key_finite in * by assumption. unfold rnd, Rminus.
  assert (E : SpecFloat.fexp 53 1024 = FLT_exp (3 - 1024 - 53) 53) by reflexivity. rewrite E.
  apply round_plus_neq_0; auto with typeclass_instances.
  - apply (generic_format_B2R 53 1024).
  - apply generic_format_opp, (generic_format_B2R 53 1024).
  - lra.
Qed.
Lemma fl_lt0 r : r <= 0 -> rnd r <> 0 -> fl r < 0.
Proof.
  intros A B. pose proof big_pos. pose proof (rnd_le A) as C. rewrite rnd_0 in C.
  unfold fl. rewrite Rmin_right by lra. apply Rmax_lub_lt; lra.
Qed.
Lemma fl_gt0 r : 0 <= r -> rnd r <> 0 -> 0 < fl r.
Proof.
  intros A B. pose proof big_pos. pose proof (rnd_le A) as C. rewrite rnd_0 in C.
  unfold fl. apply Rlt_le_trans with (Rmin big (rnd r)); [apply Rmin_glb_lt; lra|apply Rmax_r].
Qed.
Lemma fl_sub_lt x y : nfin x = true -> nfin y = true -> key x < key y -> fl (key x - key y) < 0.
Proof. intros. apply fl_lt0; [lra|]. apply rnd_sub_neq; auto; lra. Qed.
Lemma fl_sub_gt x y : nfin x = true -> nfin y = true -> key y < key x -> 0 < fl (key x - key y).
Proof. intros. apply fl_gt0; [lra|]. apply rnd_sub_neq; auto; lra. Qed.

Lemma rnd_big : rnd big = big.
Proof. unfold rnd, big. apply round_generic; auto with typeclass_instances. apply generic_format_bpow. unfold SpecFloat.fexp, SpecFloat.emin. lia. Qed.
Lemma fl_ge_big r : big <= r -> fl r = big.
Proof.
  intros H. pose proof big_pos. apply rnd_le in H. rewrite rnd_big in H. unfold fl. rewrite Rmin_left by lra. apply Rmax_right. lra.
Qed.
Lemma fl_le_mbig r : r <= - big -> fl r = - big.
Proof.
  intros H. pose proof big_pos. apply rnd_le in H. rewrite rnd_opp, rnd_big in H. unfold fl.
  rewrite Rmin_right by lra. apply Rmax_left. lra.
Qed.
Lemma fin_cases x : nnan x = false -> nfin x = true \/ x = ninf \/ x = nninf.
Proof. destruct x as [s|[|]| |s m e H]; cbn; try discriminate; auto. Qed.
Lemma nadd_inf_l y : nfin y = true -> nadd ninf y = ninf.
Proof. destruct y; try discriminate; reflexivity. Qed.
Lemma nadd_inf_r x : nfin x = true -> nadd x ninf = ninf.
Proof. destruct x; try discriminate; reflexivity. Qed.
Lemma key_inf : key ninf = big. Proof. reflexivity. Qed.
Lemma key_minf : key nninf = - big. Proof. reflexivity. Qed.
Lemma nadd_nonneg x y : nnan x = false -> nnan y = false -> 0 <= key x -> 0 <= key y ->
  nnan (nadd x y) = false /\ key (nadd x y) = fl (key x + key y).
Proof.
  intros Nx Ny X Y. pose proof big_pos as B.
  destruct (fin_cases x Nx) as [Fx|[->| ->]], (fin_cases y Ny) as [Fy|[->| ->]];
    try (rewrite key_minf in *; lra).
  - now apply nadd_fin.
  - rewrite nadd_inf_r by assumption. split; [reflexivity|]. symmetry. apply fl_ge_big. rewrite key_inf. lra.
  - rewrite nadd_inf_l by assumption. split; [reflexivity|]. symmetry. apply fl_ge_big. rewrite key_inf. lra.
  - split; [reflexivity|]. symmetry. apply fl_ge_big. rewrite key_inf. lra.
Qed.
Lemma fl_add_ge_l x y : nnan x = false -> 0 <= y -> key x <= fl (key x + y).
Proof. intros. apply fl_ge_key; [assumption|lra]. Qed.

Section N.
Variable lg : num -> num.
Local Notation O := (num_ops lg).

(** ** C31 *)
Lemma relax_amount f ctol b : nfin f = true -> nfin ctol = true -> nfin b = true -> 0 < key ctol -> key f <> 0 ->
  let a := nmin (nmax (nmul (nabs f) (nabs b)) (nabs f)) ctol in
  nfin a = true /\ 0 < key a <= key ctol /\ key a = Rmin (Rmax (fl (Rabs (key f) * Rabs (key b))) (Rabs (key f))) (key ctol).
Proof.
  intros Ff Fc Fb C N a.
  destruct (nmul_fin (nabs f) (nabs b)) as [M1 M2]; [now rewrite nfin_abs..|].
  assert (NF : nnan (nabs f) = false) by (apply nfin_nnan; now rewrite nfin_abs).
  assert (K : key a = Rmin (Rmax (fl (Rabs (key f) * Rabs (key b))) (Rabs (key f))) (key ctol)).
  { unfold a. rewrite nmin_key by (try apply nmax_nan; auto; apply nfin_nnan; assumption).
    rewrite nmax_key by auto. rewrite M2, !key_abs. reflexivity. }
  assert (P : 0 < Rabs (key f)) by now apply Rabs_pos_lt.
  assert (Q : 0 < key a <= key ctol).
  { rewrite K. split; [apply Rmin_glb_lt; [|assumption]|apply Rmin_r].
    apply Rlt_le_trans with (Rabs (key f)); [assumption|apply Rmax_r]. }
  repeat split; try apply Q; try assumption.
  apply key_strict_finite.
  - unfold a. apply nmin_nan; [apply nmax_nan; auto|now apply nfin_nnan].
  - pose proof (key_finite_lt _ Fc) as H. apply Rabs_def2 in H. pose proof big_pos. lra.
Qed.
Lemma relax_low f ctol b : nfin f = true -> nfin ctol = true -> nfin b = true -> 0 < key ctol -> key f < 0 ->
  let r := relax_bound O f ctol b in
  nnan r = false /\ fl (key b - key ctol) <= key r <= key b /\
  key r = fl (key b - Rmin (Rmax (fl (Rabs (key f) * Rabs (key b))) (Rabs (key f))) (key ctol)).
Proof.
  intros Ff Fc Fb C N. unfold relax_bound. cbn -[nlt nabs nmul nsub nadd tmin tmax].
  assert (L : nlt f nzero = true) by (apply nlt_iff; repeat split; [now apply nfin_nnan|exact N]).
  rewrite L. change (tmin O) with nmin. change (tmax O) with nmax.
  destruct (relax_amount f ctol b) as (A1 & A2 & A3); auto; [lra|]. set (a := nmin _ ctol) in *. clearbody a.
  destruct (nsub_fin b a Fb A1) as [S1 S2]. split; [assumption|]. rewrite <- A3. split; [|assumption]. rewrite S2. split.
  - apply fl_le. lra.
  - apply fl_le_key; [now apply nfin_nnan|lra].
Qed.
Lemma relax_upp f ctol b : nfin f = true -> nfin ctol = true -> nfin b = true -> 0 < key ctol -> 0 < key f ->
  let r := relax_bound O f ctol b in
  nnan r = false /\ key b <= key r <= fl (key b + key ctol) /\
  key r = fl (key b + Rmin (Rmax (fl (Rabs (key f) * Rabs (key b))) (Rabs (key f))) (key ctol)).
Proof.
  intros Ff Fc Fb C N. unfold relax_bound. cbn -[nlt nabs nmul nsub nadd tmin tmax].
  assert (L : nlt f nzero = false).
  { destruct (nlt f nzero) eqn:E; [|reflexivity]. apply nlt_iff in E. rewrite key_nzero in E. lra. }
  rewrite L. change (tmin O) with nmin. change (tmax O) with nmax.
  destruct (relax_amount f ctol b) as (A1 & A2 & A3); auto; [lra|]. set (a := nmin _ ctol) in *. clearbody a.
  destruct (nadd_fin b a Fb A1) as [S1 S2]. split; [assumption|]. rewrite <- A3. split; [|assumption]. rewrite S2. split.
  - apply fl_ge_key; [now apply nfin_nnan|lra].
  - apply fl_le. lra.
Qed.

(** ** C32 *)
Variables (eps dmin : num).
Hypotheses (He : nfin eps = true) (He0 : 0 < key eps) (Hd : nfin dmin = true) (Hd0 : 0 < key dmin) (He1 : key eps <= 1).

Lemma smin_pos mu : nfin mu = true -> 0 < key mu -> nfin (s_min O eps dmin mu) = true /\ 0 < key (s_min O eps dmin mu).
Proof.
  intros Fm M. unfold s_min. cbn -[nmul tmin neqb nzero none]. change (tmin O) with nmin.
  assert (N1 : nnan none = false) by (apply nfin_nnan, none_fin).
  assert (K : key (nmin none mu) = Rmin 1 (key mu)).
  { rewrite nmin_key by (auto; now apply nfin_nnan). now rewrite key_none. }
  assert (F : nfin (nmin none mu) = true) by (unfold nmin; destruct (nlt mu none); [assumption|apply none_fin]).
  destruct (nmul_fin eps (nmin none mu) He F) as [A B].
  destruct (neqb (nmul eps (nmin none mu)) nzero) eqn:E; [auto|].
  apply neqb_false in E; [|assumption|reflexivity]. rewrite key_nzero in E.
  assert (0 < Rmin 1 (key mu)) by (apply Rmin_glb_lt; lra). assert (Rmin 1 (key mu) <= 1) by apply Rmin_l.
  assert (P : 0 <= key (nmul eps (nmin none mu))) by (rewrite B, K; apply fl_pos; nra).
  assert (Q : key (nmul eps (nmin none mu)) <= key eps) by (rewrite B, K; apply fl_le_key; [now apply nfin_nnan|nra]).
  split; [|lra]. apply key_strict_finite; [assumption|]. pose proof (key_finite_lt _ He) as G. apply Rabs_def2 in G. pose proof big_pos; lra.
Qed.

Lemma ndiv_nnan a z : nfin a = true -> 0 < key a -> nnan z = false -> nnan (ndiv a z) = false.
Proof.
  intros Fa A Nz. destruct (fin_cases z Nz) as [Fz|[->| ->]].
  - destruct (Req_dec (key z) 0) as [E|E]; [|now apply ndiv_fin].
    destruct z as [s|s| |s m e H]; try discriminate.
    + destruct a as [sa|sa| |sa ma ea Ha]; try discriminate; [cbn in A; lra|reflexivity].
    + exfalso. cbn [key B2R] in E. apply eq_0_F2R in E. destruct s; discriminate.
  - destruct a; try discriminate; reflexivity.
  - destruct a; try discriminate; reflexivity.
Qed.

Lemma fold_min_low l : forall y, Forall (fun x => nnan x = false) (y :: l) ->
  let m := fold_left (fun m y => tmin O y m) l y in
  nnan m = false /\ Forall (fun x => key m <= key x) (y :: l).
Proof.
  induction l as [|z l IH]; intros y H; cbn [fold_left].
  - inversion H; subst. split; [assumption|]. constructor; [lra|constructor].
  - inversion H as [|? ? Hy H']; subst. inversion H' as [|? ? Hz H'']; subst.
    change (tmin O z y) with (nmin z y).
    assert (N : nnan (nmin z y) = false) by now apply nmin_nan.
    destruct (IH (nmin z y)) as [A B]; [now constructor|]. split; [exact A|].
    inversion B as [|? ? B1 B2]; subst. rewrite nmin_key in B1 by assumption.
    constructor; [|constructor]; try assumption; eapply Rle_trans; try exact B1; [apply Rmin_r|apply Rmin_l].
Qed.

Lemma key_m1 : key (nofZ (-1)) = -1. Proof. apply nofZ_spec; lia. Qed.
Lemma fin_m1 : nfin (nofZ (-1)) = true. Proof. apply nofZ_spec; lia. Qed.

(** the correction of one component *)
Lemma nlt_true x y : nnan x = false -> nnan y = false -> key x < key y -> nlt x y = true.
Proof. intros. apply nlt_iff. auto. Qed.
Lemma nlt_no x y : key y <= key x -> nlt x y = false.
Proof. intros H. destruct (nlt x y) eqn:E; [|reflexivity]. apply nlt_iff in E. lra. Qed.

Definition sm_ (smin : num) (e : sl) := nadd (s_val e) (nopp smin).
Lemma sm_key smin e : nfin smin = true -> nfin (s_val e) = true ->
  nnan (sm_ smin e) = false /\ key (sm_ smin e) = fl (key (s_val e) - key smin).
Proof.
  intros A B. unfold sm_. destruct (nadd_fin (s_val e) (nopp smin)) as [C D]; [assumption|now rewrite nfin_opp|].
  split; [assumption|]. rewrite D, key_opp. reflexivity.
Qed.
Lemma small_flag smin e : nfin smin = true -> nfin (s_val e) = true -> key (s_val e) < key smin ->
  too_small O smin e = nopp (nofZ (-1)).
Proof.
  intros A B C. destruct (sm_key smin e A B) as [N K]. pose proof (fl_sub_lt _ _ B A C) as L.
  unfold too_small, sgn, tmin. cbn -[nlt nadd nopp nzero none nofZ]. fold (sm_ smin e).
  rewrite (nlt_no nzero (sm_ smin e)) by (rewrite key_nzero, K; lra).
  rewrite (nlt_true (sm_ smin e) nzero) by (try assumption; try reflexivity; rewrite key_nzero, K; lra).
  rewrite (nlt_no nzero (nofZ (-1))) by (rewrite key_nzero, key_m1; lra). reflexivity.
Qed.
Lemma large_flag smin e : nfin smin = true -> nfin (s_val e) = true -> key smin <= key (s_val e) ->
  too_small O smin e = nopp nzero.
Proof.
  intros A B C. destruct (sm_key smin e A B) as [N K].
  assert (L : 0 <= key (sm_ smin e)) by (rewrite K; apply fl_pos; lra).
  unfold too_small, sgn, tmin. cbn -[nlt nadd nopp nzero none nofZ]. fold (sm_ smin e).
  destruct (nlt nzero (sm_ smin e)) eqn:E.
  - rewrite (nlt_true nzero none) by (try reflexivity; try (apply nfin_nnan, none_fin); rewrite key_nzero, key_none; lra). reflexivity.
  - rewrite (nlt_no (sm_ smin e) nzero) by (rewrite key_nzero; exact L).
    rewrite (nlt_no nzero nzero) by lra. reflexivity.
Qed.

Definition move_amount (move b : num) : num := nmul move (nmax none (nabs b)).
Lemma move_key move b : nfin move = true -> 0 < key move -> nfin b = true ->
  nnan (move_amount move b) = false /\ key (move_amount move b) = fl (key move * Rmax 1 (Rabs (key b))) /\
  key move <= key (move_amount move b).
Proof.
  intros A B C. unfold move_amount.
  assert (NB : nnan (nabs b) = false) by (rewrite nnan_abs; now apply nfin_nnan).
  assert (N1 : nnan none = false) by (apply nfin_nnan, none_fin).
  assert (F : nfin (nmax none (nabs b)) = true).
  { unfold nmax. destruct (nlt none (nabs b)); [now rewrite nfin_abs|apply none_fin]. }
  destruct (nmul_fin move _ A F) as [D E].
  rewrite nmax_key in E by assumption. rewrite key_none, key_abs in E. split; [assumption|]. split; [assumption|].
  rewrite E. apply fl_ge_key; [now apply nfin_nnan|]. pose proof (Rmax_l 1 (Rabs (key b))). nra.
Qed.

Lemma correct_slack_num mu move smin e :
  nfin mu = true -> 0 < key mu -> nfin move = true -> 0 < key move -> nfin smin = true -> 0 < key smin ->
  nfin (s_val e) = true -> nfin (s_bound e) = true -> nnan (s_mult e) = false ->
  let s' := correct_slack O mu move smin e in
  let top := fl (Rmax (key (s_val e)) 0 + fl (key move * Rmax 1 (Rabs (key (s_bound e))))) in
  (key smin <= key (s_val e) -> s' = s_val e) /\
  (key (s_val e) < key smin ->
     nnan s' = false /\ 0 < key s' /\ Rmax (key (s_val e)) 0 <= key s' <= top /\
     (key (ndiv mu (s_mult e)) < big ->
      key s' = Rmin (fl (fl (Rmax (key (ndiv mu (s_mult e))) (key smin) - Rmax (key (s_val e)) 0) + Rmax (key (s_val e)) 0)) top) /\
     (key (ndiv mu (s_mult e)) = big -> key s' = top)).
Proof.
  intros Fmu Pmu Fmv Pmv Fs Ps Fv Fb Nz s' top.
  pose proof (nfin_nnan _ Fv) as Nv. pose proof (nfin_nnan _ Fs) as Ns.
  destruct (move_key move (s_bound e) Fmv Pmv Fb) as (Mn & Mk & Mp).
  assert (Z0 : nnan nzero = false) by reflexivity.
  set (sp := nmax (s_val e) nzero).
  assert (Ksp : key sp = Rmax (key (s_val e)) 0) by (unfold sp; rewrite nmax_key by auto; now rewrite key_nzero).
  assert (Fsp : nfin sp = true) by (unfold sp, nmax; destruct (nlt (s_val e) nzero); [reflexivity|assumption]).
  assert (Psp : 0 <= key sp) by (rewrite Ksp; apply Rmax_r).
  pose proof (nfin_nnan _ Fsp) as Nsp.
  destruct (nadd_nonneg sp (move_amount move (s_bound e))) as [Tn Tk]; auto; [lra|].
  assert (TK : key (nadd sp (move_amount move (s_bound e))) = top) by (rewrite Tk, Ksp, Mk; reflexivity).
  assert (Tpos : Rmax (key sp) (key (move_amount move (s_bound e))) <= top).
  { rewrite <- TK, Tk. apply Rmax_lub; apply fl_ge_key; auto; lra. }
  assert (E : s' = nmin (nadd (sel O (too_small O smin e)
     (nsub (nmax (ndiv mu (s_mult e)) smin) sp)) sp) (nadd sp (move_amount move (s_bound e)))) by reflexivity.
  split; intros C.
  - rewrite E, large_flag by assumption.
    assert (sel O (nopp nzero) (nsub (nmax (ndiv mu (s_mult e)) smin) sp) = nopp nzero) as ->.
    { unfold sel. cbn -[nlt nopp nzero nsub nmax ndiv]. rewrite !nlt_no by (rewrite ?key_opp, key_nzero; lra). reflexivity. }
    assert (Esp : sp = s_val e).
    { unfold sp, nmax. rewrite nlt_no; [reflexivity|]. rewrite key_nzero; lra. }
    rewrite Esp in *.
    assert (nadd (nopp nzero) (s_val e) = s_val e) as ->.
    { destruct (s_val e) as [b|b| |b m x H]; try discriminate; [cbn in C; lra|reflexivity]. }
    unfold nmin. rewrite nlt_no; [reflexivity|]. rewrite TK.
    eapply Rle_trans; [|exact Tpos]. apply Rmax_l.
  - rewrite small_flag in E by assumption.
    assert (sel O (nopp (nofZ (-1))) (nsub (nmax (ndiv mu (s_mult e)) smin) sp) = nsub (nmax (ndiv mu (s_mult e)) smin) sp) as X.
    { unfold sel. cbn -[nlt nopp nzero nsub nmax ndiv nofZ].
      rewrite (nlt_true nzero) by (try reflexivity; rewrite ?nnan_opp, ?key_opp, ?key_m1, ?key_nzero; try (apply nfin_nnan, fin_m1); lra).
      reflexivity. }
    rewrite X in E. clear X.
    assert (Nd : nnan (ndiv mu (s_mult e)) = false) by now apply ndiv_nnan.
    set (M := nmax (ndiv mu (s_mult e)) smin) in *.
    assert (KM : key M = Rmax (key (ndiv mu (s_mult e))) (key smin)) by (unfold M; now apply nmax_key).
    assert (NM : nnan M = false) by (now apply nmax_nan).
    assert (LT : key sp < key M).
    { rewrite KM, Ksp. eapply Rlt_le_trans; [|apply Rmax_r]. apply Rmax_lub_lt; lra. }
    pose proof big_pos as B0.
    assert (D : nnan (nsub M sp) = false /\ 0 < key (nsub M sp) /\
      (key M < big -> key (nsub M sp) = fl (key M - key sp)) /\ (key M = big -> key (nsub M sp) = big)).
    { destruct (fin_cases M NM) as [FM|[EM|EM]].
      - destruct (nsub_fin M sp FM Fsp) as [D1 D2]. split; [assumption|]. split; [rewrite D2; now apply fl_sub_gt|].
        split; [intros; assumption|]. intros Q. pose proof (key_finite_lt _ FM) as G. apply Rabs_def2 in G. lra.
      - rewrite EM in *. assert (Q : nsub ninf sp = ninf) by (destruct sp; try discriminate; reflexivity). rewrite Q.
        rewrite key_inf. split; [reflexivity|]. split; [lra|]. split; [lra|reflexivity].
      - exfalso. rewrite EM, key_minf in LT. lra. }
    destruct D as (D1 & D2 & D3 & D4).
    destruct (nadd_nonneg (nsub M sp) sp D1 Nsp) as [A1 A2]; [lra|assumption|].
    assert (A3 : Rmax (key (nsub M sp)) (key sp) <= key (nadd (nsub M sp) sp)).
    { rewrite A2. apply Rmax_lub; apply fl_ge_key; auto; lra. }
    assert (Nn : nnan s' = false) by (rewrite E; now apply nmin_nan).
    assert (Kn : key s' = Rmin (key (nadd (nsub M sp) sp)) top) by (rewrite E, nmin_key by assumption; now rewrite TK).
    rewrite <- Ksp. split; [assumption|]. rewrite Kn.
    pose proof (Rmax_l (key (nsub M sp)) (key sp)). pose proof (Rmax_r (key (nsub M sp)) (key sp)).
    pose proof (Rmax_l (key sp) (key (move_amount move (s_bound e)))). pose proof (Rmax_r (key sp) (key (move_amount move (s_bound e)))).
    split; [apply Rmin_glb_lt; lra|]. split; [split; [apply Rmin_glb; lra|apply Rmin_r]|].
    split; intros Q.
    + rewrite A2, D3; [now rewrite KM|]. rewrite KM. apply Rmax_lub_lt; [assumption|].
      pose proof (key_finite_lt _ Fs) as G. apply Rabs_def2 in G. lra.
    + assert (KB : key M = big).
      { rewrite KM, Q. apply Rmax_left. pose proof (key_bound smin). lra. }
      rewrite A2, D4, fl_ge_big by (auto; lra). apply Rmin_right. unfold top. apply fl_bound.
Qed.

(** whole vectors *)
Definition good_entry (e : sl) : Prop := nfin (s_val e) = true /\ nfin (s_bound e) = true /\ nnan (s_mult e) = false.
Lemma safe_slack_num mu move es : nfin mu = true -> 0 < key mu -> nfin move = true -> 0 < key move -> Forall good_entry es ->
  let r := safe_slack O eps dmin mu move es in let smin := s_min O eps dmin mu in
  snd r = map (fun e => if Rlt_bool (key (s_val e)) (key smin) then correct_slack O mu move smin e else s_val e) es /\
  fst r = length (filter (fun e => Rlt_bool (key (s_val e)) (key smin)) es).
Proof.
  intros Fmu Pmu Fmv Pmv G r smin. destruct (smin_pos mu Fmu Pmu) as [Fs Ps]. fold smin in Fs, Ps.
  destruct es as [|e0 es0]; [split; reflexivity|]. set (es := e0 :: es0) in *.
  assert (NN : Forall (fun x => nnan x = false) (map s_val es)).
  { rewrite Forall_map. eapply Forall_impl; [|exact G]. intros e (A & _). now apply nfin_nnan. }
  assert (MN := fold_min_low (map s_val es0) (s_val e0) NN). cbv zeta in MN.
  unfold r, safe_slack, es. fold es. fold smin. change (fold_min O (map s_val es)) with (fold_left (fun m y => tmin O y m) (map s_val es0) (s_val e0)).
  set (m := fold_left _ _ _) in *. clearbody m. destruct MN as [M1 M2].
  change (tlt O m smin) with (nlt m smin). destruct (nlt m smin) eqn:E; cbn [fst snd].
  - split.
    + apply map_ext_in. intros e He2. rewrite Forall_forall in G. destruct (G e He2) as (A & B & C).
      destruct (Rlt_bool_spec (key (s_val e)) (key smin)) as [L|L]; [reflexivity|].
      destruct (correct_slack_num mu move smin e) as [H _]; auto.
    + f_equal. clear - G Fs Ps. induction es as [|e l IH]; [reflexivity|]. inversion G as [|? ? (A & B & C) G']; subst.
      cbn [filter]. rewrite IH by assumption.
      destruct (Rlt_bool_spec (key (s_val e)) (key smin)) as [L|L].
      * rewrite small_flag by assumption. change (tlt O (t0 O) (nopp (nofZ (-1)))) with (nlt nzero (nopp (nofZ (-1)))).
        rewrite nlt_true; [reflexivity|reflexivity|rewrite nnan_opp; apply nfin_nnan, fin_m1|rewrite key_opp, key_m1, key_nzero; lra].
      * rewrite large_flag by assumption. change (tlt O (t0 O) (nopp nzero)) with (nlt nzero (nopp nzero)).
        rewrite nlt_no; [reflexivity|]. rewrite key_opp, key_nzero. lra.
  - assert (Q : Forall (fun e => key smin <= key (s_val e)) es).
    { apply nlt_false in E; [|assumption|now apply nfin_nnan]. rewrite Forall_forall. intros e He2.
      rewrite Forall_forall in M2. specialize (M2 (s_val e)). eapply Rle_trans; [exact E|]. apply M2.
      change (s_val e0 :: map s_val es0) with (map s_val es). now apply in_map. }
    rewrite Forall_forall in Q. split.
    + apply map_ext_in. intros e He2. rewrite Rlt_bool_false by now apply Q. reflexivity.
    + symmetry. clear - Q. induction es as [|e l IH]; [reflexivity|]. cbn [filter].
      rewrite Rlt_bool_false by (apply Q; now left). apply IH. intros x Hx. apply Q. now right.
Qed.
End N.
