(** Proofs about least squares. *)
From Coq Require Import Reals List Arith Bool Lia Lra.
From Verif Require Import CQModel CQSpec CQVec CQFuns PdModel PdSpec PdAlg PdSearch AugModel AugSpec AugProofs.
Import ListNotations.
Open Scope R_scope.
Local Notation "v .[ i ]" := (nth i v 0) (at level 1, format "v .[ i ]").

(** ** Sums *)
Lemma sq_nonneg n f : 0 <= sq n f.
Proof. unfold sq. apply sumn_nonneg. intros. nra. Qed.
Lemma sq_ext n f g : (forall i, (i < n)%nat -> f i = g i) -> sq n f = sq n g.
Proof. intros H. unfold sq. apply sumn_ext. intros i Hi. rewrite H by exact Hi. reflexivity. Qed.
Lemma sq_add n f g : sq n (fun i => f i + g i) = sq n f + 2 * sumn n (fun i => f i * g i) + sq n g.
Proof. unfold sq. rewrite <- (sumn_scal n 2), <- !sumn_plus. apply sumn_ext. intros. ring. Qed.
(** <J' u, r> = <u, J r> *)
Lemma adjoint' J u f r n m : mr J = m -> mc J = n -> vec_is r n f -> sumn n (fun j => JTv J u j * f j) = sumn m (fun i => u.[i] * Jv J r i).
Proof.
  intros <- <- Hr. rewrite <- (adjoint J u r). apply sumn_ext. intros j Hj. destruct Hr as [_ Hr]. rewrite Hr by exact Hj. reflexivity.
Qed.
Lemma JTv_diff J u u' j m : mr J = m -> length u = m -> length u' = m -> forall d, vec_is d m (fun i => u'.[i] - u.[i]) -> JTv J u' j = JTv J u j + JTv J d j.
Proof.
  intros <- _ _ d [_ Hd]. unfold JTv. rewrite <- sumn_plus. apply sumn_ext. intros i Hi. rewrite Hd by exact Hi. ring.
Qed.
(** sum over positions *)
Lemma sumn_scat n p f g : (forall i, In i p -> (i < n)%nat) -> sumn n (fun i => scat p f i * g i) = sumn (length p) (fun k => f k * g (nth k p O)).
Proof.
  intros Hp. unfold scat.
  rewrite (sumn_ext n _ (fun i => sumn (length p) (fun k => if Nat.eqb (nth k p O) i then f k * g i else 0))).
  - rewrite sumn_swap. apply sumn_ext. intros k Hk.
    assert (Hi : (nth k p O < n)%nat) by (apply Hp, nth_In; exact Hk).
    generalize (nth k p O) Hi. clear. intros i0. induction n as [|n IH]; intros H; [lia|]. cbn [sumn].
    destruct (Nat.eqb_spec i0 n) as [->|Ne].
    + rewrite (sumn_ext n _ (fun _ => 0)); [rewrite sumn_0; ring|]. intros i Hi. destruct (Nat.eqb_spec n i); [lia|reflexivity].
    + rewrite IH by lia. ring.
  - intros i _. rewrite Rmult_comm, <- sumn_scal. apply sumn_ext. intros k _. destruct (Nat.eqb (nth k p O) i); ring.
Qed.

Section LS.
Context {L : Type}.
Variable asolve : L -> aarg -> av -> bool -> nat -> status * av * L.
Variable inertia : L -> bool.
Variable P : nlp.
Variable W0 : mat.
Hypothesis HP : nlp_ok P.
Hypothesis HW : mr W0 = n_x P /\ mc W0 = n_x P.
Hypothesis HA : aug_exact P asolve.
Notation nx := (n_x P). Notation ns := (n_s P). Notation nc := (n_c P).

Lemma q_ok x Dx Ds a b : olen Dx nx -> olen Ds ns -> arg_ok nx ns nc (AArg (Some W0) 0 Dx a Ds b (fn_Jc P x) None 0 (fn_Jd P x) None 0).
Proof. intros H1 H2. constructor; cbn; [exact HW|apply (p_Jc P HP)|apply (p_Jd P HP)|]. splits; [exact H1|exact H2|exact Logic.I|exact Logic.I]. Qed.

(** ** multipliers *)
Lemma calc_mults_opt v l yc yd l' : point_ok P v -> calc_mults asolve inertia P W0 v l = (Some (yc, yd), l') ->
  length yc = nc /\ length yd = ns /\
  forall yc' yd', length yc' = nc -> length yd' = ns -> lag_sq P v yc yd <= lag_sq P v yc' yd'.
Proof.
  intros (Lx & Ls & L1 & L2 & L3 & L4) H. unfold calc_mults in H.
  set (rx := pmul (pxU P) (-1) (vzU v) 1 _) in H. set (rs := pmul (pdU P) (-1) (vvU v) 1 _) in H.
  destruct (asolve l _ _ _ _) as [[r a] l1] eqn:E. destruct r; try discriminate. inversion H; subst yc yd l'. clear H.
  assert (Hrx : vec_is rx nx (fun i => - (fn_g P (vx v)).[i] + scat (pxL P) (fun k => (vzL v).[k]) i - scat (pxU P) (fun k => (vzU v).[k]) i)).
  { unfold rx. eapply vis_ext; [apply pmul_is; [apply vis_self, L2| |intros i Hi; apply (p_px P HP); right; exact Hi]|].
    - apply pmul_is; [apply vis_self, L1| |intros i Hi; apply (p_px P HP); left; exact Hi]. apply vis_self, (p_g P HP), Lx.
    - intros i _. cbv beta. ring. }
  assert (Hrs : vec_is rs ns (fun i => scat (pdL P) (fun k => (vvL v).[k]) i - scat (pdU P) (fun k => (vvU v).[k]) i)).
  { unfold rs. eapply vis_ext; [apply pmul_is; [apply vis_self, L4| |intros i Hi; apply (p_pd P HP); right; exact Hi]|].
    - apply pmul_is; [apply vis_self, L3| |intros i Hi; apply (p_pd P HP); left; exact Hi]. apply vset_is.
    - intros i _. cbv beta. ring. }
  apply HA in E; [|apply q_ok; exact Logic.I|unfold av_ok; cbn [ax as_ ac ad]; splits; [apply Hrx|apply Hrs|apply vset_is|apply vset_is]].
  destruct E as ((A1 & A2 & A3 & A4) & Rx & Rs & Rc & Rd). cbn [AugModel.g_Jc ax as_ ac ad] in Rx, Rs, Rc, Rd. unfold row_x, row_s, row_c, row_d, wv in *. cbn [g_W g_wf g_Dx g_dx g_Ds g_ds g_Jc g_Dc g_dc g_Jd g_Dd g_dd dv] in *.
  splits; [exact A3|exact A4|]. intros yc' yd' B3 B4. unfold lag_sq.
  set (Jc := fn_Jc P (vx v)) in *. set (Jd := fn_Jd P (vx v)) in *. set (g := fn_g P (vx v)) in *.
  destruct (p_Jc P HP (vx v)) as [Jc1 Jc2]. destruct (p_Jd P HP (vx v)) as [Jd1 Jd2]. fold Jc in Jc1, Jc2. fold Jd in Jd1, Jd2.
  set (dc := mk nc (fun i => yc'.[i] - (ac a).[i])). set (dd := mk ns (fun i => yd'.[i] - (ad a).[i])).
  assert (Hdc : vec_is dc nc (fun i => yc'.[i] - (ac a).[i])) by apply mk_is. assert (Hdd : vec_is dd ns (fun i => yd'.[i] - (ad a).[i])) by apply mk_is.
  (* the residuals are minus the solution *)
  assert (X : forall i, (i < nx)%nat -> lag_x P g Jc Jd (ac a) (ad a) (vzL v) (vzU v) i = - (ax a).[i]).
  { intros i Hi. unfold lag_x. destruct Rx as [_ Rx]. destruct Hrx as [_ Hrx]. specialize (Rx i Hi). specialize (Hrx i Hi). lra. }
  assert (Sx : forall i, (i < ns)%nat -> lag_s P (ad a) (vvL v) (vvU v) i = - (as_ a).[i]).
  { intros i Hi. unfold lag_s. destruct Rs as [_ Rs]. destruct Hrs as [_ Hrs]. specialize (Rs i Hi). specialize (Hrs i Hi). lra. }
  rewrite (sq_ext nx (lag_x P g Jc Jd yc' yd' (vzL v) (vzU v)) (fun i => - (ax a).[i] + (JTv Jc dc i + JTv Jd dd i))).
  2:{ intros i Hi. rewrite <- X by exact Hi. unfold lag_x.
      rewrite (JTv_diff Jc (ac a) yc' i nc Jc1 A3 B3 dc Hdc), (JTv_diff Jd (ad a) yd' i ns Jd1 A4 B4 dd Hdd). ring. }
  rewrite (sq_ext ns (lag_s P yd' (vvL v) (vvU v)) (fun i => - (as_ a).[i] + (- dd.[i]))).
  2:{ intros i Hi. rewrite <- Sx by exact Hi. unfold lag_s. destruct Hdd as [_ Hdd]. rewrite Hdd by exact Hi. ring. }
  rewrite (sq_ext nx _ _ X), (sq_ext ns _ _ Sx), (sq_add nx (fun i => - (ax a).[i])), (sq_add ns (fun i => - (as_ a).[i])).
  (* cross terms *)
  assert (C : sumn nx (fun i => - (ax a).[i] * (JTv Jc dc i + JTv Jd dd i)) + sumn ns (fun i => - (as_ a).[i] * - dd.[i]) = 0).
  { rewrite (sumn_ext nx _ (fun i => -1 * (JTv Jc dc i * (ax a).[i] + JTv Jd dd i * (ax a).[i]))) by (intros; ring).
    rewrite sumn_scal, sumn_plus, (adjoint' Jc dc _ (ax a) nx nc Jc1 Jc2 (vis_self _ _ A1)), (adjoint' Jd dd _ (ax a) nx ns Jd1 Jd2 (vis_self _ _ A1)).
    rewrite (sumn_ext nc _ (fun _ => 0)).
    2:{ intros i Hi. destruct Rc as [_ Rc]. specialize (Rc i Hi). rewrite (vis_el _ _ _ _ (vset_is nc 0) Hi : (vset nc 0).[i] = 0) in Rc.
        replace (Jv Jc (ax a) i) with 0 by lra. ring. }
    rewrite (sumn_ext ns _ (fun i => (as_ a).[i] * dd.[i])).
    2:{ intros i Hi. destruct Rd as [_ Rd]. specialize (Rd i Hi). rewrite (vis_el _ _ _ _ (vset_is ns 0) Hi : (vset ns 0).[i] = 0) in Rd.
        replace (Jv Jd (ax a) i) with (as_ a).[i] by lra. ring. }
    rewrite sumn_0. rewrite (sumn_ext ns (fun i => - (as_ a).[i] * - dd.[i]) (fun i => (as_ a).[i] * dd.[i])) by (intros; ring). ring. }
  pose proof (sq_nonneg nx (fun i => JTv Jc dc i + JTv Jd dd i)). pose proof (sq_nonneg ns (fun i => - dd.[i])). lra.
Qed.

Lemma Jv_diff J x x' j n : mc J = n -> forall d, vec_is d n (fun i => x'.[i] - x.[i]) -> Jv J x' j = Jv J x j + Jv J d j.
Proof. intros <- d [_ Hd]. unfold Jv. rewrite <- sumn_plus. apply sumn_ext. intros i Hi. rewrite Hd by exact Hi. ring. Qed.
Lemma Jv_neg J x x' i n : mc J = n -> vec_is x' n (fun j => -1 * x.[j]) -> Jv J x' i = - Jv J x i.
Proof. intros <- [_ Hd]. unfold Jv. replace (- sumn (mc J) (fun j => ment J i j * x.[j])) with (-1 * sumn (mc J) (fun j => ment J i j * x.[j])) by ring.
  rewrite <- sumn_scal. apply sumn_ext. intros j Hj. rewrite Hd by exact Hj. ring. Qed.
Lemma JTv_neg J x x' i n : mr J = n -> vec_is x' n (fun j => -1 * x.[j]) -> JTv J x' i = - JTv J x i.
Proof. intros <- [_ Hd]. unfold JTv. replace (- sumn (mr J) (fun j => ment J j i * x.[j])) with (-1 * sumn (mr J) (fun j => ment J j i * x.[j])) by ring.
  rewrite <- sumn_scal. apply sumn_ext. intros j Hj. rewrite Hd by exact Hj. ring. Qed.
Lemma vset0 n i : (i < n)%nat -> (vset n 0).[i] = 0.
Proof. intros H. exact (vis_el _ _ _ _ (vset_is n 0) H). Qed.

(** ** primals *)
Lemma ls_primals_opt x0 l x s l' : length x0 = nx -> ls_primals asolve P W0 x0 l = (Some (x, s), l') ->
  let sat x s := (forall i, (i < nc)%nat -> Jv (fn_Jc P x0) x i + (fn_c P x0).[i] = 0) /\
                 (forall i, (i < ns)%nat -> Jv (fn_Jd P x0) x i + (fn_d P x0).[i] = s.[i]) in
  length x = nx /\ length s = ns /\ sat x s /\
  forall x' s', length x' = nx -> length s' = ns -> sat x' s' -> sq nx (fun i => x.[i]) + sq ns (fun i => s.[i]) <= sq nx (fun i => x'.[i]) + sq ns (fun i => s'.[i]).
Proof.
  intros Lx0 H. unfold ls_primals in H.
  destruct (asolve l _ _ _ _) as [[r a] l1] eqn:E. destruct r; try discriminate. inversion H; subst x s l'. clear H.
  apply HA in E; [|apply q_ok; exact Logic.I|unfold av_ok; cbn [ax as_ ac ad]; splits; [apply vset_is|apply vset_is|apply (p_c P HP), Lx0|apply (p_d P HP), Lx0]].
  destruct E as ((A1 & A2 & A3 & A4) & Rx & Rs & Rc & Rd). unfold row_x, row_s, row_c, row_d, wv in *.
  cbn [ax as_ ac ad g_W g_wf g_Dx g_dx g_Ds g_ds g_Jc g_Dc g_dc g_Jd g_Dd g_dd dv] in *.
  set (Jc := fn_Jc P x0) in *. set (Jd := fn_Jd P x0) in *.
  destruct (p_Jc P HP x0) as [Jc1 Jc2]. destruct (p_Jd P HP x0) as [Jd1 Jd2]. fold Jc in Jc1, Jc2. fold Jd in Jd1, Jd2.
  pose proof (vmap_is (Rmult (-1)) _ _ _ (vis_self _ _ A1)) as Hx. pose proof (vmap_is (Rmult (-1)) _ _ _ (vis_self _ _ A2)) as Hs. cbv beta in Hx, Hs.
  set (x := vmap (Rmult (-1)) (ax a)) in *. set (s := vmap (Rmult (-1)) (as_ a)) in *. cbv zeta. splits.
  - apply Hx.
  - apply Hs.
  - intros i Hi. rewrite (Jv_neg Jc (ax a) x i nx Jc2 Hx). destruct Rc as [_ Rc]. rewrite (Rc i Hi). ring.
  - intros i Hi. rewrite (Jv_neg Jd (ax a) x i nx Jd2 Hx). destruct Rd as [_ Rd]. rewrite (Rd i Hi). destruct Hs as [_ Hs]. rewrite (Hs i Hi). ring.
  - intros x' s' Lx' Ls' [Sc Sd].
    set (dx := mk nx (fun i => x'.[i] - x.[i])). set (ds := mk ns (fun i => s'.[i] - s.[i])).
    assert (Hdx : vec_is dx nx (fun i => x'.[i] - x.[i])) by apply mk_is. assert (Hds : vec_is ds ns (fun i => s'.[i] - s.[i])) by apply mk_is.
    rewrite (sq_ext nx (fun i => x'.[i]) (fun i => x.[i] + dx.[i])) by (intros i Hi; destruct Hdx as [_ Hdx]; rewrite Hdx by exact Hi; ring).
    rewrite (sq_ext ns (fun i => s'.[i]) (fun i => s.[i] + ds.[i])) by (intros i Hi; destruct Hds as [_ Hds]; rewrite Hds by exact Hi; ring).
    rewrite (sq_add nx (fun i => x.[i])), (sq_add ns (fun i => s.[i])).
    assert (C : sumn nx (fun i => x.[i] * dx.[i]) + sumn ns (fun i => s.[i] * ds.[i]) = 0).
    { rewrite (sumn_ext nx _ (fun i => JTv Jc (ac a) i * dx.[i] + JTv Jd (ad a) i * dx.[i])).
      2:{ intros i Hi. destruct Rx as [_ Rx]. specialize (Rx i Hi). rewrite (vset0 nx i Hi) in Rx. destruct Hx as [_ Hx]. rewrite (Hx i Hi).
          replace (-1 * (ax a).[i]) with (JTv Jc (ac a) i + JTv Jd (ad a) i) by lra. ring. }
      rewrite sumn_plus, (adjoint' Jc (ac a) _ dx nx nc Jc1 Jc2 (vis_self _ _ (proj1 Hdx))), (adjoint' Jd (ad a) _ dx nx ns Jd1 Jd2 (vis_self _ _ (proj1 Hdx))).
      rewrite (sumn_ext nc _ (fun _ => 0)), sumn_0.
      2:{ intros i Hi. specialize (Sc i Hi). rewrite (Jv_diff Jc x x' i nx Jc2 dx Hdx), (Jv_neg Jc (ax a) x i nx Jc2 Hx) in Sc. destruct Rc as [_ Rc]. rewrite (Rc i Hi) in Sc.
          replace (Jv Jc dx i) with 0 by lra. ring. }
      rewrite Rplus_0_l, <- sumn_plus, (sumn_ext ns _ (fun _ => 0)); [apply sumn_0|].
      intros i Hi. specialize (Sd i Hi). rewrite (Jv_diff Jd x x' i nx Jd2 dx Hdx), (Jv_neg Jd (ax a) x i nx Jd2 Hx) in Sd.
      destruct Rd as [_ Rd]. rewrite (Rd i Hi) in Sd. destruct Rs as [_ Rs]. specialize (Rs i Hi). rewrite (vset0 ns i Hi) in Rs.
      destruct Hds as [_ Hds]. rewrite (Hds i Hi). destruct Hs as [_ Hs]. rewrite (Hs i Hi) in *.
      replace (Jv Jd dx i) with (s'.[i] + (as_ a).[i]) by lra. replace (ad a).[i] with (as_ a).[i] by lra. ring. }
    pose proof (sq_nonneg nx (fun i => dx.[i])). pose proof (sq_nonneg ns (fun i => ds.[i])). lra.
Qed.

(** ** duals *)
Lemma minus_ones_is n pL pU : (forall i, In i pL \/ In i pU -> (i < n)%nat) ->
  vec_is (minus_ones n pL pU) n (fun i => - scat pL (fun _ => 1) i - scat pU (fun _ => 1) i).
Proof.
  intros H. unfold minus_ones. eapply vis_ext; [apply pmul_is; [apply vset_is| |intros i Hi; apply H; right; exact Hi]|].
  - apply pmul_is; [apply vset_is|apply vset_is|intros i Hi; apply H; left; exact Hi].
  - intros i _. cbv beta. rewrite (scat_ext pL (fun _ => -1) (fun _ => -1 * 1)), (scat_ext pU (fun _ => -1) (fun _ => -1 * 1)) by (intros; ring).
    rewrite !scat_scal. ring.
Qed.
(** p, q: positions of lower and upper bounds; u: the solution *)
Lemma dual_part p q u n zL zU i : (forall i, In i p \/ In i q -> (i < n)%nat) -> length u = n ->
  vec_is zL (length p) (fun k => -1 * u.[nth k p O]) -> vec_is zU (length q) (fun k => 1 * u.[nth k q O]) ->
  - scat p (fun k => zL.[k]) i + scat q (fun k => zU.[k]) i = (scat p (fun _ => 1) i + scat q (fun _ => 1) i) * u.[i].
Proof.
  intros H Lu [_ HL] [_ HU].
  rewrite (scat_ext p (fun k => zL.[k]) (fun k => -1 * (1 * u.[nth k p O]))) by (intros k Hk; rewrite HL by exact Hk; ring).
  rewrite (scat_ext q (fun k => zU.[k]) (fun k => 1 * u.[nth k q O])) by (intros k Hk; rewrite HU by exact Hk; ring).
  rewrite scat_scal, (scat_pos p (fun _ => 1) (fun j => u.[j])), (scat_pos q (fun _ => 1) (fun j => u.[j])). ring.
Qed.
Lemma dual_cross p q u n zL zU zL' zU' : (forall i, In i p \/ In i q -> (i < n)%nat) ->
  vec_is zL (length p) (fun k => -1 * u.[nth k p O]) -> vec_is zU (length q) (fun k => 1 * u.[nth k q O]) ->
  sumn (length p) (fun k => zL.[k] * (zL'.[k] - zL.[k])) + sumn (length q) (fun k => zU.[k] * (zU'.[k] - zU.[k])) =
  sumn n (fun i => (- scat p (fun k => zL'.[k]) i + scat q (fun k => zU'.[k]) i - (- scat p (fun k => zL.[k]) i + scat q (fun k => zU.[k]) i)) * u.[i]).
Proof.
  intros H [_ HL] [_ HU].
  rewrite (sumn_ext n _ (fun i => -1 * (scat p (fun k => zL'.[k] - zL.[k]) i * u.[i]) + 1 * (scat q (fun k => zU'.[k] - zU.[k]) i * u.[i]))).
  2:{ intros i _. rewrite (scat_ext p (fun k => zL'.[k] - zL.[k]) (fun k => 1 * zL'.[k] + -1 * zL.[k])) by (intros; ring).
      rewrite (scat_ext q (fun k => zU'.[k] - zU.[k]) (fun k => 1 * zU'.[k] + -1 * zU.[k])) by (intros; ring). rewrite !scat_lin. ring. }
  rewrite sumn_lin, (sumn_scat n p _ (fun i => u.[i])), (sumn_scat n q _ (fun i => u.[i])) by (intros i Hi; apply H; tauto).
  rewrite <- !sumn_scal. f_equal; apply sumn_ext; intros k Hk; [rewrite (HL k Hk)|rewrite (HU k Hk)]; ring.
Qed.
Lemma sq_diff n (f g : nat -> R) : sq n g = sq n f + 2 * sumn n (fun k => f k * (g k - f k)) + sq n (fun k => g k - f k).
Proof. rewrite <- sq_add. apply sq_ext. intros. ring. Qed.

Lemma ls_duals_opt xc xt l yc yd zL zU vL vU l' : length xc = nx -> length xt = nx ->
  ls_duals asolve P W0 xc xt l = (Some (yc, yd, (zL, zU, vL, vU)), l') ->
  let stat yc yd zL zU vL vU := (forall i, (i < nx)%nat -> lag_x P (fn_g P xt) (fn_Jc P xc) (fn_Jd P xc) yc yd zL zU i = 0) /\
                                (forall i, (i < ns)%nat -> lag_s P yd vL vU i = 0) in
  let size zL zU vL vU := sq (length (pxL P)) (fun k => zL.[k]) + sq (length (pxU P)) (fun k => zU.[k]) + sq (length (pdL P)) (fun k => vL.[k]) + sq (length (pdU P)) (fun k => vU.[k]) in
  (length yc = nc /\ length yd = ns /\ length zL = length (pxL P) /\ length zU = length (pxU P) /\ length vL = length (pdL P) /\ length vU = length (pdU P)) /\
  stat yc yd zL zU vL vU /\
  forall yc' yd' zL' zU' vL' vU', length yc' = nc -> length yd' = ns -> stat yc' yd' zL' zU' vL' vU' -> size zL zU vL vU <= size zL' zU' vL' vU'.
Proof.
  intros Lxc Lxt H. unfold ls_duals in H.
  destruct (asolve l _ _ _ _) as [[r a] l1] eqn:E. destruct r; try discriminate.
  assert (EQ : vmap (Rmult (-1)) (ac a) = yc /\ vmap (Rmult (-1)) (ad a) = yd /\ ptmul (pxL P) (-1) (ax a) 0 [] = zL /\ ptmul (pxU P) 1 (ax a) 0 [] = zU /\
     ptmul (pdL P) (-1) (as_ a) 0 [] = vL /\ ptmul (pdU P) 1 (as_ a) 0 [] = vU) by (inversion H; splits; reflexivity). clear H.
  pose proof (minus_ones_is nx (pxL P) (pxU P) (p_px P HP)) as Mx. pose proof (minus_ones_is ns (pdL P) (pdU P) (p_pd P HP)) as Ms.
  apply HA in E; [|apply q_ok; [apply Mx|apply Ms]|unfold av_ok; cbn [ax as_ ac ad]; splits; [apply (p_g P HP), Lxt|apply vset_is|apply vset_is|apply vset_is]].
  destruct E as ((A1 & A2 & A3 & A4) & Rx & Rs & Rc & Rd). unfold row_x, row_s, row_c, row_d, wv in *.
  cbn [ax as_ ac ad g_W g_wf g_Dx g_dx g_Ds g_ds g_Jc g_Dc g_dc g_Jd g_Dd g_dd dv] in *.
  set (Jc := fn_Jc P xc) in *. set (Jd := fn_Jd P xc) in *.
  destruct (p_Jc P HP xc) as [Jc1 Jc2]. destruct (p_Jd P HP xc) as [Jd1 Jd2]. fold Jc in Jc1, Jc2. fold Jd in Jd1, Jd2.
  pose proof (vmap_is (Rmult (-1)) _ _ _ (vis_self _ _ A3)) as Hyc. pose proof (vmap_is (Rmult (-1)) _ _ _ (vis_self _ _ A4)) as Hyd. cbv beta in Hyc, Hyd.
  assert (PT : forall p al (u : vec) n, length u = n -> (forall i, In i p -> (i < n)%nat) -> vec_is (ptmul p al u 0 []) (length p) (fun k => al * u.[nth k p O])).
  { intros p al u n Lu Hp. unfold ptmul. apply mk_is'; [reflexivity|]. intros k Hk. unfold el. ring. }
  pose proof (PT (pxL P) (-1) (ax a) nx A1 (fun i Hi => p_px P HP i (or_introl Hi))) as HzL.
  pose proof (PT (pxU P) 1 (ax a) nx A1 (fun i Hi => p_px P HP i (or_intror Hi))) as HzU.
  pose proof (PT (pdL P) (-1) (as_ a) ns A2 (fun i Hi => p_pd P HP i (or_introl Hi))) as HvL.
  pose proof (PT (pdU P) 1 (as_ a) ns A2 (fun i Hi => p_pd P HP i (or_intror Hi))) as HvU. clear PT.
  destruct EQ as (Ec & Ed & E1 & E2 & E3 & E4). rewrite Ec in Hyc. rewrite Ed in Hyd. rewrite E1 in HzL. rewrite E2 in HzU. rewrite E3 in HvL. rewrite E4 in HvU.
  clear Ec Ed E1 E2 E3 E4. cbv zeta.
  assert (X0 : forall i, (i < nx)%nat -> lag_x P (fn_g P xt) Jc Jd yc yd zL zU i = 0).
  { intros i Hi. unfold lag_x. rewrite (JTv_neg Jc (ac a) yc i nc Jc1 Hyc), (JTv_neg Jd (ad a) yd i ns Jd1 Hyd).
    pose proof (dual_part _ _ (ax a) nx zL zU i (p_px P HP) A1 HzL HzU) as D. destruct Rx as [_ Rx]. specialize (Rx i Hi).
    destruct Mx as [_ Mx]. rewrite (Mx i Hi) in Rx. lra. }
  assert (S0 : forall i, (i < ns)%nat -> lag_s P yd vL vU i = 0).
  { intros i Hi. unfold lag_s. pose proof (dual_part _ _ (as_ a) ns vL vU i (p_pd P HP) A2 HvL HvU) as D. destruct Rs as [_ Rs]. specialize (Rs i Hi).
    destruct Ms as [_ Ms]. rewrite (Ms i Hi) in Rs. rewrite (vset0 ns i Hi) in Rs. destruct Hyd as [_ Hyd]. rewrite (Hyd i Hi). lra. }
  splits; [apply Hyc|apply Hyd|apply HzL|apply HzU|apply HvL|apply HvU|exact X0|exact S0|].
  intros yc' yd' zL' zU' vL' vU' B3 B4 [X1 S1].
  rewrite (sq_diff _ (fun k => zL.[k]) (fun k => zL'.[k])), (sq_diff _ (fun k => zU.[k]) (fun k => zU'.[k])),
          (sq_diff _ (fun k => vL.[k]) (fun k => vL'.[k])), (sq_diff _ (fun k => vU.[k]) (fun k => vU'.[k])).
  pose proof (dual_cross _ _ (ax a) nx zL zU zL' zU' (p_px P HP) HzL HzU) as C1.
  pose proof (dual_cross _ _ (as_ a) ns vL vU vL' vU' (p_pd P HP) HvL HvU) as C2.
  set (dc := mk nc (fun i => yc'.[i] - yc.[i])). set (dd := mk ns (fun i => yd'.[i] - yd.[i])).
  assert (Hdc : vec_is dc nc (fun i => yc'.[i] - yc.[i])) by apply mk_is. assert (Hdd : vec_is dd ns (fun i => yd'.[i] - yd.[i])) by apply mk_is.
  assert (C : sumn nx (fun i => (- scat (pxL P) (fun k => zL'.[k]) i + scat (pxU P) (fun k => zU'.[k]) i - (- scat (pxL P) (fun k => zL.[k]) i + scat (pxU P) (fun k => zU.[k]) i)) * (ax a).[i])
            + sumn ns (fun i => (- scat (pdL P) (fun k => vL'.[k]) i + scat (pdU P) (fun k => vU'.[k]) i - (- scat (pdL P) (fun k => vL.[k]) i + scat (pdU P) (fun k => vU.[k]) i)) * (as_ a).[i]) = 0).
  { rewrite (sumn_ext nx _ (fun i => -1 * (JTv Jc dc i * (ax a).[i] + JTv Jd dd i * (ax a).[i]))).
    2:{ intros i Hi. specialize (X0 i Hi). specialize (X1 i Hi). unfold lag_x in *.
        rewrite (JTv_diff Jc yc yc' i nc Jc1 (proj1 Hyc) B3 dc Hdc), (JTv_diff Jd yd yd' i ns Jd1 (proj1 Hyd) B4 dd Hdd) in X1.
        match goal with |- ?t * _ = _ => replace t with (- (JTv Jc dc i + JTv Jd dd i)) by lra end. ring. }
    rewrite sumn_scal, sumn_plus, (adjoint' Jc dc _ (ax a) nx nc Jc1 Jc2 (vis_self _ _ A1)), (adjoint' Jd dd _ (ax a) nx ns Jd1 Jd2 (vis_self _ _ A1)).
    rewrite (sumn_ext nc _ (fun _ => 0)), sumn_0.
    2:{ intros i Hi. destruct Rc as [_ Rc]. specialize (Rc i Hi). rewrite (vset0 nc i Hi) in Rc. replace (Jv Jc (ax a) i) with 0 by lra. ring. }
    rewrite (sumn_ext ns (fun i => dd.[i] * Jv Jd (ax a) i) (fun i => dd.[i] * (as_ a).[i])).
    2:{ intros i Hi. destruct Rd as [_ Rd]. specialize (Rd i Hi). rewrite (vset0 ns i Hi) in Rd. replace (Jv Jd (ax a) i) with (as_ a).[i] by lra. ring. }
    rewrite Rplus_0_l, <- sumn_scal, <- sumn_plus, (sumn_ext ns _ (fun _ => 0)); [apply sumn_0|].
    intros i Hi. specialize (S0 i Hi). specialize (S1 i Hi). unfold lag_s in *. destruct Hdd as [_ Hdd]. rewrite (Hdd i Hi).
    match goal with |- _ + ?t * _ = _ => replace t with (yd'.[i] - yd.[i]) by lra end. ring. }
  pose proof (sq_nonneg (length (pxL P)) (fun k => zL'.[k] - zL.[k])). pose proof (sq_nonneg (length (pxU P)) (fun k => zU'.[k] - zU.[k])).
  pose proof (sq_nonneg (length (pdL P)) (fun k => vL'.[k] - vL.[k])). pose proof (sq_nonneg (length (pdU P)) (fun k => vU'.[k] - vU.[k])).
  lra.
Qed.
End LS.
